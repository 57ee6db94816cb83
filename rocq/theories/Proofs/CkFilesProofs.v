(** Names and files of a trial directory. *)
From Coq Require Import Ascii String List Bool Arith Permutation Lia Sorted Psatz.
From Verif.Model Require Import PyDict Checkpoint CkFiles.
From Verif.Spec Require Import CkFilesSpec.
From Verif.Proofs Require Import PyDictProofs CheckpointProofs.
Import ListNotations.
Open Scope nat_scope.
Local Open Scope list_scope.

Lemma neqb_spec a b : neqb a b = true <-> a = b.
Proof. unfold neqb. destruct (list_eq_dec ascii_dec a b); split; congruence. Qed.

(** ** decimal notation *)
Lemma digit_nat d : d < 10 -> nat_of_ascii (digit d) = 48 + d.
Proof. intro H. unfold digit. apply nat_ascii_embedding. lia. Qed.
Lemma value_app a b : value (a ++ b) = value a * 10 ^ length b + value b.
Proof. induction a as [|c a IH]; cbn [value app]; [lia|]. rewrite IH, app_length, Nat.pow_add_r. lia. Qed.
Lemma dec_aux_ok fuel n acc : n < fuel -> digits acc \/ acc = [] ->
  digits (dec_aux fuel n acc) /\ value (dec_aux fuel n acc) = n * 10 ^ length acc + value acc.
Proof.
  revert n acc. induction fuel as [|f IH]; intros n acc H A; [lia|]. cbn [dec_aux].
  assert (M : n mod 10 < 10) by (apply Nat.mod_upper_bound; lia). pose proof (Nat.div_mod n 10 ltac:(lia)) as DM.
  assert (A' : digits (digit (n mod 10) :: acc)).
  { split; [discriminate|]. intros c [<-|I]; [rewrite digit_nat by auto; lia|]. destruct A as [A|A]; [now apply A|subst; destruct I]. }
  destruct (n / 10 =? 0) eqn:E.
  - apply Nat.eqb_eq in E. split; [exact A'|]. cbn [value]. rewrite digit_nat by auto. replace (48 + n mod 10 - 48) with (n mod 10) by lia. replace (n mod 10) with n by lia. lia.
  - apply Nat.eqb_neq in E. assert (L : n / 10 < f) by (apply Nat.lt_le_trans with n; [apply Nat.div_lt; lia|lia]).
    destruct (IH (n / 10) _ L (or_introl A')) as (H1 & H2). split; [exact H1|]. rewrite H2. cbn [value length]. rewrite digit_nat by auto.
    replace (48 + n mod 10 - 48) with (n mod 10) by lia. rewrite Nat.pow_succ_r'. set (p := 10 ^ length acc).
    replace (n / 10 * (10 * p) + (n mod 10 * p + value acc)) with ((10 * (n / 10) + n mod 10) * p + value acc) by ring. rewrite <- DM. reflexivity.
Qed.
Lemma dec_ok n : digits (dec n) /\ value (dec n) = n.
Proof. destruct (dec_aux_ok (S n) n [] ltac:(lia) (or_intror eq_refl)) as (A & B). split; [exact A|]. unfold dec. rewrite B. cbn. lia. Qed.
Lemma value_zeros m s : value (repeat (digit 0) m ++ s) = value s.
Proof. induction m as [|m IH]; [reflexivity|]. cbn [repeat app value]. rewrite IH, digit_nat by lia. lia. Qed.
Lemma pad7_ok n : digits (pad7 n) /\ value (pad7 n) = n.
Proof.
  destruct (dec_ok n) as ((A & B) & C). unfold pad7. rewrite value_zeros. split; [|exact C]. split.
  - intro E. apply app_eq_nil in E. tauto.
  - intros c I. apply in_app_or in I. destruct I as [I|I]; [|now apply B]. apply repeat_spec in I. subst c. rewrite digit_nat; lia.
Qed.
Lemma int_of_value s : int_of s = value s.
Proof.
  unfold int_of. assert (H : forall v, fold_left (fun v c => 10 * v + (nat_of_ascii c - 48)) s v = v * 10 ^ length s + value s); [|rewrite H; lia].
  induction s as [|c s IH]; intro v; cbn [fold_left value length]; [cbn; lia|]. rewrite IH, Nat.pow_succ_r'. ring.
Qed.
Lemma value_bound s : (forall c, In c s -> 48 <= nat_of_ascii c <= 57) -> value s < 10 ^ length s.
Proof.
  induction s as [|c s IH]; intro H; cbn [value length]; [cbn; lia|]. rewrite Nat.pow_succ_r'. specialize (IH ltac:(intros; apply H; now right)).
  assert (nat_of_ascii c - 48 <= 9) by (pose proof (H c (or_introl eq_refl)); lia). nia.
Qed.
Lemma dec_width_aux fuel n acc m : n < fuel -> length acc + length (dec_aux fuel n []) <= m -> length (dec_aux fuel n acc) <= m.
Proof.
  enough (G : forall fuel n acc, length (dec_aux fuel n acc) = length acc + length (dec_aux fuel n [])) by (intros; rewrite G; lia).
  clear. induction fuel as [|f IH]; intros n acc; cbn [dec_aux]; [cbn; lia|]. destruct (n / 10 =? 0); [cbn; lia|].
  rewrite (IH _ (_ :: acc)), (IH _ [_]). cbn [length]. lia.
Qed.
Lemma dec_width fuel : forall n w, n < fuel -> n < 10 ^ S w -> length (dec_aux fuel n []) <= S w.
Proof.
  induction fuel as [|f IH]; intros n w H B; [lia|]. cbn [dec_aux]. destruct (n / 10 =? 0) eqn:E; [cbn; lia|].
  apply Nat.eqb_neq in E. destruct w as [|w]; [exfalso; apply E; apply Nat.div_small; cbn in B; lia|].
  assert (L : n / 10 < f) by (apply Nat.lt_le_trans with n; [apply Nat.div_lt; [destruct n; [exfalso; now apply E|lia]|lia]|lia]).
  apply dec_width_aux with (m := S (S w)); auto. cbn [length]. assert (length (dec_aux f (n / 10) []) <= S w); [|lia].
  apply IH; auto. apply Nat.div_lt_upper_bound; [lia|]. rewrite <- Nat.pow_succ_r'. exact B.
Qed.
Lemma pad7_width n : n < 10 ^ 7 -> length (pad7 n) = 7.
Proof. intro H. unfold pad7. rewrite app_length, repeat_length. pose proof (dec_width (S n) n 6 ltac:(lia) H). unfold dec. lia. Qed.

(** ** names *)
Lemma strip_app p s : strip p (p ++ s) = Some s.
Proof. induction p as [|a p IH]; cbn; [reflexivity|]. destruct (ascii_dec a a); congruence. Qed.
Lemma strip_some p s r : strip p s = Some r <-> s = p ++ r.
Proof.
  split; [|intros ->; apply strip_app]. revert s. induction p as [|a p IH]; intros s; cbn; [congruence|].
  destruct s as [|b s]; [discriminate|]. destruct (ascii_dec a b) as [->|]; [|discriminate]. intro H. now rewrite (IH _ H).
Qed.
Lemma is_digit_spec c : is_digit c = true <-> 48 <= nat_of_ascii c <= 57.
Proof. unfold is_digit. rewrite andb_true_iff, !Nat.leb_le. tauto. Qed.
Lemma span_spec s : let '(a, b) := span_digits s in s = a ++ b /\ (forall c, In c a -> 48 <= nat_of_ascii c <= 57) /\
  (match b with [] => True | c :: _ => is_digit c = false end).
Proof.
  induction s as [|c s IH]; cbn; [split; [reflexivity|split; [intros ? []|exact I]]|]. destruct (is_digit c) eqn:E.
  - destruct (span_digits s) as (a & b). destruct IH as (-> & A & B). split; [reflexivity|]. split; [|exact B]. intros x [<-|H]; [now apply is_digit_spec|auto].
  - split; [reflexivity|]. split; [intros ? []|exact E].
Qed.
Lemma span_app ds c r : (forall x, In x ds -> 48 <= nat_of_ascii x <= 57) -> is_digit c = false -> span_digits (ds ++ c :: r) = (ds, c :: r).
Proof.
  intros A B. induction ds as [|d ds IH]; cbn [app span_digits]; [now rewrite B|]. rewrite (proj2 (is_digit_spec d)) by (apply A; now left).
  rewrite IH by (intros; apply A; now right). reflexivity.
Qed.
Lemma ext_dot ext : In ext extensions -> exists r, ext = "."%char :: r.
Proof. cbn. intros [<-|[<-|[<-|[<-|[]]]]]; eexists; reflexivity. Qed.
Lemma ext_in rest : existsb (neqb rest) extensions = true <-> In rest extensions.
Proof.
  rewrite existsb_exists. split.
  - intros (x & I & E). apply neqb_spec in E. now subst.
  - intro I. exists rest. split; [exact I|]. now apply neqb_spec.
Qed.
Lemma ext_or ext : In ext extensions <-> (ext = str ".pkl" \/ ext = str ".pkl.zst" \/ ext = (str ".pkl" ++ newline) \/ ext = (str ".pkl.zst" ++ newline)).
Proof. cbn [In extensions]. split; intros H; repeat (destruct H as [H|H]; auto); try (right; tauto); tauto. Qed.
Lemma parse_iff s k : ck_iteration s = Some k <-> names s k.
Proof.
  unfold ck_iteration, names. split.
  - destruct (strip (str "checkpoint_") s) as [r|] eqn:E; [|discriminate]. apply strip_some in E. pose proof (span_spec r) as SP.
    destruct (span_digits r) as (ds, rest). destruct SP as (-> & A & B). destruct ds as [|d ds]; [discriminate|].
    destruct (existsb (neqb rest) extensions) eqn:X; [|discriminate]. intro H. injection H as <-. apply ext_in, ext_or in X.
    exists (d :: ds), rest. split; [exact E|]. split; [split; [discriminate|exact A]|]. split; [symmetry; apply int_of_value|exact X].
  - intros (ds & ext & -> & (N & A) & <- & X). apply ext_or in X. rewrite strip_app. destruct (ext_dot _ X) as (r & ->).
    rewrite span_app by (auto; reflexivity). destruct ds as [|d ds]; [congruence|]. rewrite (proj2 (ext_in _) X). now rewrite int_of_value.
Qed.
Lemma ck_names k : names (ck_name k) k.
Proof. exists (pad7 k), (str ".pkl.zst"). destruct (pad7_ok k). auto 6. Qed.
Lemma legacy_names k : names (legacy_name k) k.
Proof. exists (pad7 k), (str ".pkl"). destruct (pad7_ok k). auto 6. Qed.
Lemma names_fun s j k : names s j -> names s k -> j = k.
Proof. intros A B. apply parse_iff in A, B. congruence. Qed.
Lemma ck_inj j k : ck_name j = ck_name k -> j = k.
Proof. intro E. apply (names_fun (ck_name j)); [apply ck_names|rewrite E; apply ck_names]. Qed.
Lemma legacy_inj j k : legacy_name j = legacy_name k -> j = k.
Proof. intro E. apply (names_fun (legacy_name j)); [apply legacy_names|rewrite E; apply legacy_names]. Qed.
Lemma last_char (a : name) x b y : a ++ [x] = b ++ [y] -> x = y.
Proof. intro E. apply app_inj_tail in E. tauto. Qed.
Lemma ck_legacy j k : ck_name j <> legacy_name k.
Proof.
  unfold ck_name, legacy_name. intro E. apply app_inv_head in E.
  change (str ".pkl.zst") with (str ".pkl.zs" ++ ["t"%char]) in E. change (str ".pkl") with (str ".pk" ++ ["l"%char]) in E.
  rewrite !app_assoc in E. apply last_char in E. discriminate.
Qed.
Lemma ck_progress k : ck_name k <> progress_name. Proof. discriminate. Qed.
Lemma ck_complete k : ck_name k <> complete_name. Proof. discriminate. Qed.
Lemma legacy_progress k : legacy_name k <> progress_name. Proof. discriminate. Qed.
Lemma legacy_complete k : legacy_name k <> complete_name. Proof. discriminate. Qed.

(** ** glob *)
Lemma ends_iff suf s : ends_with suf s = true <-> exists r, s = r ++ suf.
Proof.
  unfold ends_with. split.
  - destruct (strip (rev suf) (rev s)) as [r|] eqn:E; [|discriminate]. intros _. apply strip_some in E. exists (rev r).
    rewrite <- (rev_involutive s), E, rev_app_distr, rev_involutive. reflexivity.
  - intros (r & ->). rewrite rev_app_distr, strip_app. reflexivity.
Qed.
Lemma glob_iff suf s : glob suf s = true <-> exists r, s = str "checkpoint_" ++ r ++ suf.
Proof.
  unfold glob. split.
  - destruct (strip (str "checkpoint_") s) as [q|] eqn:E; [|discriminate]. intro H. apply ends_iff in H. destruct H as (r & ->). apply strip_some in E. now exists r.
  - intros (r & ->). rewrite strip_app. apply ends_iff. now exists r.
Qed.
Lemma glob_one n : glob (str ".pkl") n = true -> glob (str ".pkl.zst") n = true -> False.
Proof.
  rewrite !glob_iff. intros (a & ->) (b & E). apply app_inv_head in E.
  change (str ".pkl.zst") with (str ".pkl.zs" ++ ["t"%char]) in E. change (str ".pkl") with (str ".pk" ++ ["l"%char]) in E.
  rewrite !app_assoc in E. apply last_char in E. discriminate.
Qed.
Definition is_ck (n : name) : bool := glob (str ".pkl") n || glob (str ".pkl.zst") n.
Lemma looks_iff n : is_ck n = true <-> looks_like n.
Proof.
  unfold is_ck, looks_like. rewrite orb_true_iff, !glob_iff. split.
  - intros [(r & ->)|(r & ->)]; exists r; auto.
  - intros (r & [->| ->]); eauto.
Qed.
Lemma ck_looks k : looks_like (ck_name k). Proof. exists (pad7 k). right. reflexivity. Qed.
Lemma legacy_looks k : looks_like (legacy_name k). Proof. exists (pad7 k). left. reflexivity. Qed.
Lemma other_looks n : In n [progress_name; complete_name] -> ~ looks_like n.
Proof. intros [<-|[<-|[]]] (r & [E|E]); discriminate. Qed.
