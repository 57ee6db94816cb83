(** Checkpoint directories. *)
From Coq Require Import List Bool Arith ZArith Lia Sorted Permutation.
From Verif.Model Require Import PyDict History Messages Network Runner Checkpoint.
From Verif.Spec Require Import RunnerSpec CheckpointSpec.
From Verif.Proofs Require Import PyDictProofs RunnerProofs.
Import ListNotations.
Open Scope nat_scope.

(** ** Sorting *)
Lemma insert_perm k l : Permutation (insert_desc k l) (k :: l).
Proof. induction l as [|j l IH]; cbn [insert_desc]; [auto|]. destruct (j <? k); [auto|]. eapply perm_trans; [apply perm_skip, IH|apply perm_swap]. Qed.
Lemma sort_perm l : Permutation (sort_desc l) l.
Proof. induction l as [|k l IH]; cbn; [auto|]. eapply perm_trans; [apply insert_perm|now apply perm_skip]. Qed.
Lemma insert_sorted k l : StronglySorted ge l -> StronglySorted ge (insert_desc k l).
Proof.
  induction 1 as [|j l S IH F]; cbn [insert_desc]; [repeat constructor|]. destruct (Nat.ltb_spec j k).
  - constructor; [now constructor|]. constructor; [lia|]. eapply Forall_impl; [|exact F]. cbn. intros; lia.
  - constructor; auto. apply Forall_forall. intros x I. apply (Permutation_in _ (insert_perm k l)) in I. destruct I as [<-|I]; [lia|]. rewrite Forall_forall in F. now apply F.
Qed.
Lemma sort_sorted l : StronglySorted ge (sort_desc l).
Proof. induction l as [|k l IH]; cbn; [constructor|]. now apply insert_sorted. Qed.
Lemma sort_NoDup l : NoDup l -> NoDup (sort_desc l).
Proof. intro H. eapply Permutation_NoDup; [symmetry; apply sort_perm|exact H]. Qed.
(** in a descending list without duplicates, the first [n] are those with fewer
    than [n] larger elements *)
Lemma firstn_rank l : StronglySorted ge l -> NoDup l -> forall n j, In j (firstn n l) <-> In j l /\ length (filter (fun i => j <? i) l) < n.
Proof.
  induction 1 as [|k l S IH F]; intros ND n j; [rewrite firstn_nil; cbn; tauto|]. inversion ND as [|? ? NI ND']; subst.
  assert (G : forall i, In i l -> i < k). { intros i Hi. rewrite Forall_forall in F. specialize (F i Hi). assert (i <> k) by (intros ->; auto). lia. }
  destruct n as [|n]; [cbn; lia|]. cbn [firstn In filter]. rewrite IH by auto. destruct (Nat.ltb_spec j k) as [L|L]; cbn [length].
  - split; [intros [->|(I & R)]; [lia|split; [auto|lia]]|]. intros ([->|I] & R); [lia|]. right. split; [auto|lia].
  - split.
    + intros [->|(I & R)]; [|specialize (G j I); lia]. split; [auto|]. replace (filter (fun i => j <? i) l) with (@nil nat); [cbn; lia|].
      symmetry. clear - G. induction l as [|i l IH]; cbn [filter]; auto. destruct (Nat.ltb_spec j i); [specialize (G i (or_introl eq_refl)); lia|]. apply IH. intros x Hx. apply G. now right.
    + intros ([->|I] & R); [auto|]. specialize (G j I). lia.
Qed.
Lemma filter_len_perm {X} (f : X -> bool) l l' : Permutation l l' -> length (filter f l) = length (filter f l').
Proof. induction 1; cbn; auto; [destruct (f x); cbn; congruence|destruct (f x), (f y); cbn; auto|congruence]. Qed.
Lemma head_max l k : NoDup l -> In k l -> (forall j, In j l -> j <= k) -> forall n, ~ In k (skipn (S n) (sort_desc l)).
Proof.
  intros ND I M n H. assert (J : In k (firstn 1 (sort_desc l))).
  { apply (firstn_rank _ (sort_sorted l) (sort_NoDup l ND)). split; [apply (Permutation_in _ (Permutation_sym (sort_perm l))); auto|].
    rewrite (filter_len_perm _ _ _ (sort_perm l)). replace (filter (fun i => k <? i) l) with (@nil nat); [cbn; lia|].
    symmetry. clear - M. induction l as [|i l IH]; cbn [filter]; auto. destruct (Nat.ltb_spec k i); [specialize (M i (or_introl eq_refl)); lia|]. apply IH. intros x Hx. apply M. now right. }
  pose proof (sort_NoDup l ND) as ND2. destruct (sort_desc l) as [|h q]; [destruct J|]. cbn in J. destruct J as [->|[]]. cbn [skipn] in H.
  inversion ND2; subst. apply H2. rewrite <- (firstn_skipn n q). apply in_app_iff. now right.
Qed.

(** ** Directories *)
Section D.
  Context {D : Type}.
  Implicit Types (s : dir D).
  Notation get s k := (dget Nat.eqb (d_ck s) k).
  Definition keys s := dkeys (d_ck s).
  Lemma apply_app l1 l2 s : apply_all (l1 ++ l2) s = apply_all l2 (apply_all l1 s). Proof. apply fold_left_app. Qed.
  Lemma key_get s k : In k (keys s) <-> get s k <> None.
  Proof. unfold keys. rewrite (dget_None_iff _ _ Nat.eqb Nat.eqb_spec (d_ck s) k). destruct (in_dec Nat.eq_dec k (dkeys (d_ck s))); tauto. Qed.
  Lemma key_set s k (v : file D) j : In j (dkeys (dset Nat.eqb (d_ck s) k v)) <-> j = k \/ In j (keys s).
  Proof.
    pose proof (key_get (mkDir (dset Nat.eqb (d_ck s) k v) (d_prog s) (d_comp s)) j) as X. unfold keys in X at 1. cbn [d_ck] in X. rewrite X.
    destruct (Nat.eq_dec j k) as [->|NE].
    - rewrite (dget_dset_eq _ _ Nat.eqb Nat.eqb_spec). split; [auto|discriminate].
    - rewrite (dget_dset_neq _ _ Nat.eqb Nat.eqb_spec) by auto. rewrite <- key_get. intuition.
  Qed.
  Lemma pops l : forall s, NoDup (keys s) -> let s' := apply_all (map UnlinkCk l) s in
    d_prog s' = d_prog s /\ d_comp s' = d_comp s /\ NoDup (keys s') /\ (forall j, ~ In j l -> get s' j = get s j) /\ (forall j, In j l -> get s' j = None) /\ incl (keys s') (keys s).
  Proof.
    induction l as [|k l IH]; intros s ND; cbn [map apply_all fold_left].
    - repeat split; auto; try (intros j []). intros j; auto.
    - assert (ND1 : NoDup (keys (apply s (UnlinkCk k)))) by (apply (NoDup_dpop _ _ Nat.eqb); auto).
      destruct (IH (apply s (UnlinkCk k)) ND1) as (P & C & N & G & G' & I). fold (apply_all (map UnlinkCk l) (apply s (UnlinkCk k))) in *. cbn zeta.
      split; [exact P|]. split; [exact C|]. split; [exact N|]. split; [|split].
      + intros j Hj. rewrite G by (intro; apply Hj; now right). cbn. apply (dget_dpop_neq _ _ Nat.eqb Nat.eqb_spec). intros ->. apply Hj. now left.
      + intros j [->|Hj].
        * destruct (in_dec Nat.eq_dec j l); [auto|]. rewrite G by auto. cbn. apply (dget_dpop_eq _ _ Nat.eqb Nat.eqb_spec). auto.
        * auto.
      + intros j Hj. apply I in Hj. eapply (In_dkeys_dpop _ _ Nat.eqb). exact Hj.
  Qed.
  Lemma key_mem s k : dmem Nat.eqb (d_ck s) k = true <-> In k (keys s).
  Proof. apply (dmem_In _ _ Nat.eqb Nat.eqb_spec). Qed.
  (** the directory after writing checkpoint and progress *)
  Definition written (k : nat) (d : D) s : dir D := apply_all [TruncCk k; WriteCk k d; TruncProg; WriteProg k] s.
  Lemma written_spec k d s : NoDup (keys s) ->
    d_prog (written k d s) = Some (Full k) /\ d_comp (written k d s) = d_comp s /\ NoDup (keys (written k d s)) /\
    get (written k d s) k = Some (Full d) /\ (forall j, j <> k -> get (written k d s) j = get s j) /\
    (forall j, In j (keys (written k d s)) <-> j = k \/ In j (keys s)).
  Proof.
    intro ND. cbn. split; [auto|]. split; [auto|]. split; [|split; [|split]].
    - unfold keys. cbn. now repeat apply (NoDup_dset _ _ Nat.eqb Nat.eqb_spec).
    - apply (dget_dset_eq _ _ Nat.eqb Nat.eqb_spec).
    - intros j NE. now rewrite !(dget_dset_neq _ _ Nat.eqb Nat.eqb_spec) by auto.
    - intro j. pose proof (key_set (apply s (TruncCk k)) k (Full d) j) as X. cbn [apply d_ck] in X. unfold keys at 1. cbn [written apply_all fold_left apply d_ck]. rewrite X.
      unfold keys at 1. cbn [d_ck]. rewrite key_set. intuition.
  Qed.
  Lemma save_eq keep k d s x : already_saved k s = Some false -> save keep k d s = Some x ->
    x = [TruncCk k; WriteCk k d; TruncProg; WriteProg k] ++ map UnlinkCk (skipn keep (sort_desc (keys (written k d s)))).
  Proof. unfold save. intros -> [= <-]. reflexivity. Qed.
  (** every prefix of a save *)
  Lemma save_prefix keep k d s x n : NoDup (keys s) -> already_saved k s = Some false -> save keep k d s = Some x ->
    let s' := apply_all (firstn n x) s in
    d_comp s' = d_comp s /\ NoDup (keys s') /\ (forall j, In j (keys s') -> j = k \/ In j (keys s)) /\ length (keys s') <= S (length (keys s)) /\
    (s' = s \/
     (d_prog s' = d_prog s /\ forall j, j <> k -> get s' j = get s j) \/
     d_prog s' = Some Torn \/
     (d_prog s' = Some (Full k) /\ (1 <= keep -> (forall j, In j (keys s) -> j <= k) -> get s' k = Some (Full d)) /\
      (forall j, In j (keys s') -> j <> k -> get s' j = get s j) /\
      (length x <= n -> forall j, In j (keys s') <-> In j (firstn keep (sort_desc (keys (written k d s))))))).
  Proof.
    intros ND AS SV. rewrite (save_eq keep k d s x AS SV). clear AS SV x.
    assert (LEN : forall v, length (dkeys (dset Nat.eqb (d_ck s) k v)) <= S (length (keys s))).
    { intro v. rewrite (dkeys_dset _ _ Nat.eqb Nat.eqb_spec). destruct (dmem _ _ _); [unfold keys; lia|]. rewrite app_length. cbn. unfold keys. lia. }
    assert (LEN2 : forall v v', length (dkeys (dset Nat.eqb (dset Nat.eqb (d_ck s) k v) k v')) <= S (length (keys s))).
    { intros v v'. rewrite (dkeys_dset _ _ Nat.eqb Nat.eqb_spec). replace (dmem Nat.eqb (dset Nat.eqb (d_ck s) k v) k) with true; [apply LEN|].
      symmetry. apply (dmem_In _ _ Nat.eqb Nat.eqb_spec). apply key_set. auto. }
    assert (ND1 : forall v, NoDup (dkeys (dset Nat.eqb (d_ck s) k v))) by (intro; apply (NoDup_dset _ _ Nat.eqb Nat.eqb_spec); auto).
    assert (ND2 : forall v v', NoDup (dkeys (dset Nat.eqb (dset Nat.eqb (d_ck s) k v) k v'))) by (intros; apply (NoDup_dset _ _ Nat.eqb Nat.eqb_spec); auto).
    assert (K2 : forall v v' j, In j (dkeys (dset Nat.eqb (dset Nat.eqb (d_ck s) k v) k v')) -> j = k \/ In j (keys s)).
    { intros v v' j H. pose proof (key_set (apply s (TruncCk k)) k v' j) as X. pose proof (key_set s k Torn j) as Y. cbn in X, Y. unfold keys in *. cbn in *.
      rewrite (dkeys_dset _ _ Nat.eqb Nat.eqb_spec) in H. destruct (dmem _ _ _); [apply (key_set s k v j) in H; exact H|].
      apply in_app_iff in H. destruct H as [H|[<-|[]]]; [apply (key_set s k v j) in H; exact H|auto]. }
    destruct n as [|[|[|[|n]]]]; cbn [app firstn apply_all fold_left].
    - split; [auto|]. split; [auto|]. split; [auto|]. split; [lia|]. now left.
    - split; [auto|]. split; [apply ND1|]. split; [intros j H; now apply (key_set s k Torn) in H|]. split; [apply LEN|]. right; left. split; [auto|].
      intros j NE. apply (dget_dset_neq _ _ Nat.eqb Nat.eqb_spec). auto.
    - split; [auto|]. split; [apply ND2|]. split; [apply K2|]. split; [apply LEN2|]. right; left. split; [auto|].
      intros j NE. cbn. now rewrite !(dget_dset_neq _ _ Nat.eqb Nat.eqb_spec) by auto.
    - split; [auto|]. split; [apply ND2|]. split; [apply K2|]. split; [apply LEN2|]. right; right; left. reflexivity.
    - destruct (written_spec k d s ND) as (P & C & N & G & G' & I).
      change (fold_left apply (firstn n (map UnlinkCk (skipn keep (sort_desc (keys (written k d s)))))) (apply (apply (apply (apply s (TruncCk k)) (WriteCk k d)) TruncProg) (WriteProg k)))
        with (apply_all (firstn n (map UnlinkCk (skipn keep (sort_desc (keys (written k d s)))))) (written k d s)).
      rewrite firstn_map. set (l := skipn keep (sort_desc (keys (written k d s)))).
      destruct (pops (firstn n l) (written k d s) N) as (P' & C' & N' & H1 & H2 & H3). cbn zeta in *.
      set (s' := apply_all (map UnlinkCk (firstn n l)) (written k d s)) in *.
      split; [congruence|]. split; [exact N'|]. split; [intros j Hj; apply I; auto|]. split.
      { transitivity (length (keys (written k d s))); [|apply LEN2]. apply NoDup_incl_length; auto. }
      right; right; right. split; [congruence|]. split; [|split].
      + intros KP MX. rewrite H1; [exact G|]. intro Q. assert (Q' : In k l). { rewrite <- (firstn_skipn n l). apply in_app_iff. now left. }
        unfold l in Q'. destruct keep as [|keep]; [lia|]. revert Q'. apply head_max; [exact N| |].
        * apply I. auto.
        * intros j Hj. apply I in Hj. destruct Hj as [->|Hj]; auto.
      + intros j Hj NE. assert (NI : ~ In j (firstn n l)). { intro Q. apply key_get in Hj. apply Hj. auto. } rewrite H1 by auto. auto.
      + intros LE j. assert (E : firstn n l = l). { apply firstn_all2. cbn [length] in LE. rewrite map_length in LE. cbn in LE. fold l in LE. lia. }
        rewrite E in H1, H2. pose proof (firstn_skipn keep (sort_desc (keys (written k d s)))) as SP. fold l in SP.
        pose proof (sort_NoDup _ N) as NS. rewrite <- SP in NS. split.
        * intro Hj. assert (NI : ~ In j l). { intro Q. apply key_get in Hj. apply Hj. auto. }
          apply H3 in Hj. apply (Permutation_in _ (Permutation_sym (sort_perm _))) in Hj. rewrite <- SP in Hj. apply in_app_iff in Hj. tauto.
        * intro Hj. assert (NI : ~ In j l). { intro Q. clear - NS Hj Q. induction (firstn keep _) as [|a f IH]; [destruct Hj|]. cbn in NS. inversion NS; subst. destruct Hj as [->|Hj]; [apply H1, in_app_iff; auto|auto]. }
          apply key_get. rewrite H1 by auto. apply key_get. apply (Permutation_in _ (sort_perm _)). rewrite <- SP. apply in_app_iff. auto.
  Qed.
End D.

(** ** One trial *)
Lemma NoDup_fst_fun {X Y} (l : list (X * Y)) k v v' : NoDup (map fst l) -> In (k, v) l -> In (k, v') l -> v = v'.
Proof.
  induction l as [|(a, b) l IH]; cbn; [tauto|]. intros ND I I'. inversion ND; subst.
  destruct I as [[= -> ->]|I], I' as [[= E]|I']; auto; try congruence.
  - exfalso. apply H1. apply (in_map fst) in I'. exact I'.
  - subst. exfalso. apply H1. apply (in_map fst) in I. exact I.
Qed.
Lemma skipn_seq n : forall a m, skipn n (seq a m) = seq (a + n) (m - n).
Proof. induction n as [|n IH]; intros a [|m]; cbn [skipn seq Nat.sub]; rewrite ?Nat.add_0_r; auto. rewrite IH. f_equal. lia. Qed.
Lemma skipn_tail {X} (l : list X) : forall k a C, a :: C = skipn k l -> C = skipn (S k) l.
Proof. induction l as [|b l IH]; intros [|k] a C E; try discriminate; [now injection E|]. cbn in E. apply (IH k a C E). Qed.
  Lemma firstn_split {X} n (x y : list X) : firstn n (x ++ y) = firstn n x \/ exists m, firstn n (x ++ y) = x ++ firstn m y.
  Proof.
    rewrite firstn_app. destruct (le_lt_dec n (length x)) as [L|L].
    - left. replace (n - length x) with 0 by lia. cbn. now rewrite app_nil_r.
    - right. exists (n - length x). rewrite (firstn_all2 x) by lia. reflexivity.
  Qed.
Section Core.
  Context {V S : Type}.
  Variable t : topo.
  Notation world := (world V S).
  Notation dir := (dir world).
  Implicit Types (s : dir).
  Notation get s k := (dget Nat.eqb (d_ck s) k).
  (** [m]: 0, or the progress file exists and names an iteration [p >= m - 1] *)
  Variables (step : option nat) (m N : nat) (C0 : list (nat * world)) (fin : bool) (wf : world).
  Hypothesis IDX : map fst C0 = seq 0 (length C0).
  Hypothesis LEN : length C0 <= N.
  Hypothesis POS : 1 <= N.
  Hypothesis FIN : fin = true -> length C0 = N /\ In (N - 1, wf) C0.

  Definition point (q : nat) : Prop := (should step q = true /\ q < N) \/ q = N - 1.
  Definition after s (q : nat) : Prop := match d_prog s with Some (Full p) => p < q | _ => True end.
  Definition prog_lt s (k : nat) : Prop := match d_prog s with Some (Full p) => p < k | _ => True end.
  Definition nopoint s (k : nat) : Prop := forall q, should step q = true -> after s q -> k <= q.
  Definition Inv s : Prop :=
    NoDup (keys s) /\
    ((m = 0 /\ d_prog s = None) \/ exists p w, d_prog s = Some (Full p) /\ In (p, w) C0 /\ get s p = Some (Full w) /\ m <= Datatypes.S p) /\
    (forall j, In j (keys s) -> j < N) /\
    (forall j q, In j (keys s) -> point q -> after s q -> j <= q) /\
    (d_comp s = None \/ (fin = true /\ d_comp s = Some (Full (N - 1)) /\ d_prog s = Some (Full (N - 1)) /\ get s (N - 1) = Some (Full wf))).
  Lemma Inv_json s : Inv s -> json_ok s.
  Proof using. intros (_ & [(_ & P)|(p & w & P & _)] & _ & _ & [C|(_ & C & _)]); unfold json_ok; rewrite P, C; split; discriminate. Qed.
  Lemma Inv_empty : m = 0 -> Inv empty_dir.
  Proof using. intro Z. split; [constructor|]. split; [now left|]. split; [intros j []|]. split; [intros j q []|now left]. Qed.
  Lemma In_lt k w : In (k, w) C0 -> k < length C0.
  Proof using IDX. clear - IDX. intro H. apply (in_map fst) in H. rewrite IDX in H. apply in_seq in H. cbn in H. lia. Qed.
  Lemma save_prog keep k (d : world) s x : NoDup (keys s) -> already_saved k s = Some false -> save keep k d s = Some x -> d_prog (apply_all x s) = Some (Full k).
  Proof.
    intros ND AS SV. rewrite (save_eq keep k d s x AS SV). rewrite apply_app. destruct (written_spec k d s ND) as (P & _ & N0 & _).
    fold (written k d s). destruct (pops (skipn keep (sort_desc (keys (written k d s)))) (written k d s) N0) as (P' & _). congruence.
  Qed.
  Lemma save_inv keep s k w : 1 <= keep -> Inv s -> d_comp s = None -> In (k, w) C0 -> point k -> after s k -> (forall q, point q -> after s q -> k <= q) ->
    exists x, save keep k w s = Some x /\ d_prog (apply_all x s) = Some (Full k) /\
      forall n, let s' := apply_all (firstn n x) s in json_ok s' -> Inv s' /\ d_comp s' = None.
  Proof.
    intros KP (ND & PR & KN & BD & CO) CN IN PT AF MIN. pose proof (In_lt k w IN) as KL.
    assert (AS : already_saved k s = Some false).
    { unfold already_saved. destruct (dmem _ _ _); auto. destruct PR as [(_ & ->)|(p & w' & P & _)]; auto. unfold after in AF. rewrite P in *. f_equal. apply Nat.eqb_neq. lia. }
    assert (SV : exists x, save keep k w s = Some x) by (unfold save; rewrite AS; eauto). destruct SV as (x & SV). exists x. split; [exact SV|].
    split; [now apply (save_prog keep k w)|]. intros n s' JS. destruct (save_prefix keep k w s x n ND AS SV) as (C' & N' & K' & _ & CASES). fold s' in C', N', K', CASES.
    split; [|congruence].
    assert (MX : forall j, In j (keys s) -> j <= k) by (intros j Hj; apply (BD j k); auto).
    destruct CASES as [-> |[(P' & G')|[P'|(P' & G' & G2 & _)]]].
    - split; auto.
    - split; [exact N'|]. split; [|split; [|split]].
      + destruct PR as [(Z & PR)|(p & w' & PR & I & G & M)]; [left; split; congruence|]. right. exists p, w'. split; [congruence|]. split; [auto|]. split; [|auto]. rewrite G'; auto.
        unfold after in AF. rewrite PR in AF. lia.
      + intros j Hj. destruct (K' j Hj) as [->|Hj']; [lia|auto].
      + intros j q Hj Pq Aq. unfold after in Aq. rewrite P' in Aq. fold (after s q) in Aq. destruct (K' j Hj) as [->|Hj']; [apply MIN; auto|apply BD; auto].
      + left. congruence.
    - destruct JS as (JS & _). congruence.
    - split; [exact N'|]. split; [|split; [|split]].
      + right. exists k, w. split; [exact P'|]. split; [exact IN|]. split; [apply G'; auto|]. destruct PR as [(Z & _)|(p & w' & PR & _ & _ & M)]; [lia|].
        unfold after in AF. rewrite PR in AF. lia.
      + intros j Hj. destruct (K' j Hj) as [->|Hj']; [lia|auto].
      + intros j q Hj Pq Aq. unfold after in Aq. rewrite P' in Aq. destruct (K' j Hj) as [->|Hj']; [lia|]. specialize (MX j Hj'). lia.
      + left. congruence.
  Qed.
  Definition wants (C : list (nat * world)) := filter (fun p => should step (fst p)) C.
  Lemma saves_inv keep : 1 <= keep -> forall C k s, C = skipn k C0 -> Inv s -> d_comp s = None -> prog_lt s k -> nopoint s k ->
    exists x, save_all keep (wants C) s = (x, None) /\
      (forall n, let s' := apply_all (firstn n x) s in json_ok s' -> Inv s' /\ d_comp s' = None) /\
      let s' := apply_all x s in Inv s' /\ d_comp s' = None /\ prog_lt s' (k + length C) /\ nopoint s' (k + length C).
  Proof.
    intro KP. induction C as [|(i, w) C IH]; intros k s E IV CN PL NP.
    - exists []. cbn. split; [auto|]. split; [intros n; rewrite firstn_nil; cbn; auto|]. rewrite Nat.add_0_r. auto.
    - assert (KL : k < length C0). { destruct (le_lt_dec (length C0) k); auto. rewrite skipn_all2 in E by lia. discriminate. }
      assert (IK : i = k).
      { assert (X : map fst (skipn k C0) = seq k (length C0 - k)). { rewrite <- skipn_map, IDX. rewrite skipn_seq. reflexivity. }
        rewrite <- E in X. destruct (length C0 - k) eqn:Q; [lia|]. cbn in X. now injection X. }
      subst i. assert (E' : C = skipn (Datatypes.S k) C0). { eapply skipn_tail. exact E. }
      assert (IN : In (k, w) C0). { rewrite <- (firstn_skipn k C0), <- E. apply in_app_iff. right. now left. }
      cbn [wants filter fst]. destruct (should step k) eqn:SH.
      + destruct (save_inv keep s k w KP IV CN IN) as (x & SV & PX & PRE).
        { left. split; [auto|]. lia. }
        { unfold after. unfold prog_lt in PL. exact PL. }
        { intros q [(SQ & _)| ->] AQ; [now apply NP|]. lia. }
        cbn [save_all]. rewrite SV. fold (wants C).
        pose proof (PRE (length x)) as F. rewrite firstn_all in F. cbn zeta in F.
        assert (JX : json_ok (apply_all x s)).
        { split; [congruence|]. destruct (save_prefix keep k w s x (length x)) as (C' & _); auto; [apply IV| |rewrite firstn_all in C'; rewrite C'; congruence].
          unfold already_saved. destruct (dmem _ _ _); auto. unfold prog_lt in PL. destruct IV as (_ & [(_ & ->)|(p & w' & P & _)] & _); auto. rewrite P in *. f_equal. apply Nat.eqb_neq. lia. }
        destruct (F JX) as (IX & CX). destruct (IH (Datatypes.S k) (apply_all x s) E' IX CX) as (y & SY & PY & FY).
        { unfold prog_lt. rewrite PX. lia. } { intros q SQ AQ. unfold after in AQ. rewrite PX in AQ. lia. }
        rewrite SY. exists (x ++ y). split; [auto|]. rewrite apply_app. split.
        * intro n. destruct (firstn_split n x y) as [->|(mm & ->)]; [apply PRE|]. rewrite apply_app. apply PY.
        * cbn [length]. replace (k + Datatypes.S (length C)) with (Datatypes.S k + length C) by lia. exact FY.
      + fold (wants C). destruct (IH (Datatypes.S k) s E' IV CN) as (y & SY & PY & FY).
        { unfold prog_lt in *. destruct (d_prog s) as [[|p]|]; auto. } { intros q SQ AQ. assert (k <= q) by now apply NP. assert (q <> k) by congruence. lia. }
        exists y. split; [auto|]. split; [auto|]. cbn [length]. replace (k + Datatypes.S (length C)) with (Datatypes.S k + length C) by lia. exact FY.
  Qed.
  (** the rest of an attempt *)
  Definition trial_end (keep : nat) (C : list (nat * world)) (s : dir) : attempt_res V S :=
    let '(x, failed) := save_all keep (wants C) s in
    match failed with
    | Some w' => mkAtt x (Returned false w')
    | None =>
      if fin then
        match mark_complete keep (N - 1) wf (apply_all x s) with
        | Some y => mkAtt (x ++ y) (Returned true (fst wf, clear_aux t (snd wf)))
        | None => mkAtt x (Returned false wf)
        end
      else mkAtt x (Returned false wf)
    end.
  Lemma trial_end_ok keep k s : 1 <= keep -> k <= length C0 -> Inv s -> d_comp s = None -> prog_lt s k -> nopoint s k ->
    let r := trial_end keep (skipn k C0) s in
    at_answer r = Returned fin (if fin then (fst wf, clear_aux t (snd wf)) else wf) /\
    (forall n, let s' := apply_all (firstn n (at_effects r)) s in json_ok s' -> Inv s') /\
    let s' := apply_all (at_effects r) s in Inv s' /\ d_comp s' = (if fin then Some (Full (N - 1)) else None).
  Proof.
    intros KP KL IV CN PL NP. unfold trial_end. destruct (saves_inv keep KP (skipn k C0) k s eq_refl IV CN PL NP) as (x & -> & PRE & IX & CX & PX & NX).
    cbn zeta. rewrite skipn_length in PX, NX. replace (k + (length C0 - k)) with (length C0) in PX, NX by lia.
    assert (EF : fin = true \/ fin = false) by (destruct (Bool.bool_dec fin true) as [E0|E0]; [now left|right; now apply Bool.not_true_is_false]).
    destruct EF as [EF|EF]; rewrite EF; [|split; [auto|]; split; [intros n J; apply PRE; auto|cbn [at_effects]; auto]].
    destruct (FIN EF) as (LN & IN). rewrite LN in PX, NX.
    set (s1 := apply_all x s) in *. pose proof IX as (ND & PR & KN & BD & _).
    assert (SV : exists y, save keep (N - 1) wf s1 = Some y /\ Inv (apply_all y s1) /\ d_comp (apply_all y s1) = None /\ d_prog (apply_all y s1) = Some (Full (N - 1)) /\
       forall n, json_ok (apply_all (firstn n y) s1) -> Inv (apply_all (firstn n y) s1)).
    { assert (D : d_prog s1 = Some (Full (N - 1)) \/ after s1 (N - 1)).
      { unfold after. unfold prog_lt in PX. destruct (d_prog s1) as [[|p]|]; auto. destruct (Nat.eq_dec p (N - 1)) as [->|]; [auto|right; lia]. }
      destruct D as [D|D].
      - exists []. assert (AS : already_saved (N - 1) s1 = Some true).
        { unfold already_saved. destruct PR as [(_ & PR)|(p & w' & P & _ & G & _)]; [congruence|]. assert (p = N - 1) by congruence. subst p.
          replace (dmem Nat.eqb (d_ck s1) (N - 1)) with true; [rewrite D, Nat.eqb_refl; auto|]. symmetry. apply key_mem, key_get. congruence. }
        unfold save. rewrite AS. cbn. split; [auto|]. split; [auto|]. split; [auto|]. split; [auto|]. intros n; rewrite firstn_nil; auto.
      - destruct (save_inv keep s1 (N - 1) wf KP IX CX IN) as (y & SV & PY & PREY).
        { now right. } { exact D. } { intros q [(SQ & _)| ->] AQ; [|lia]. specialize (NX q SQ AQ). lia. }
        exists y. split; [exact SV|]. pose proof (PREY (length y)) as F. rewrite firstn_all in F. cbn zeta in F.
        assert (JY : json_ok (apply_all y s1)).
        { split; [congruence|]. destruct (save_prefix keep (N - 1) wf s1 y (length y) ND) as (C' & _); auto; [|rewrite firstn_all in C'; rewrite C'; congruence].
          unfold already_saved. destruct (dmem _ _ _); auto. unfold after in D. destruct PR as [(_ & ->)|(p & w' & P & _)]; auto. rewrite P in *. f_equal. apply Nat.eqb_neq. lia. }
        destruct (F JY) as (IY & CY). split; [auto|]. split; [auto|]. split; [auto|]. intros n J. now apply PREY. }
    destruct SV as (y & SV & IY & CY & PY & PREY). unfold mark_complete. rewrite SV. cbn [at_effects at_answer]. split; [auto|].
    assert (IC : Inv (apply_all (x ++ y ++ [TruncComp; WriteComp (N - 1)]) s)).
    { rewrite !apply_app. fold s1. cbn [apply_all fold_left]. fold (apply_all y s1). set (s2 := apply_all y s1) in *. destruct IY as (N2 & P2 & K2 & B2 & _).
      split; [exact N2|]. split; [exact P2|]. split; [exact K2|]. split; [exact B2|]. right. split; [auto|]. cbn. split; [auto|]. split; [auto|].
      destruct P2 as [(_ & P2)|(p & w' & P2 & I2 & G2 & _)]; [congruence|]. assert (p = N - 1) by congruence. subst p.
      assert (w' = wf). { apply (NoDup_fst_fun C0 (N - 1)); auto. rewrite IDX. apply seq_NoDup. } subst w'. exact G2. }
    split; [|split; [exact IC|rewrite !apply_app; reflexivity]].
    intros n J. destruct (firstn_split n x (y ++ [TruncComp; WriteComp (N - 1)])) as [E|(mm & E)]; rewrite E in *; [now apply PRE|].
    rewrite apply_app in *. fold s1 in J |- *. destruct (firstn_split mm y [TruncComp; WriteComp (N - 1)]) as [E2|(m2 & E2)]; rewrite E2 in *; [now apply PREY|].
    rewrite apply_app in *. destruct m2 as [|[|m2]].
    - exact IY.
    - destruct J as (_ & J). exfalso. apply J. reflexivity.
    - rewrite ?apply_app in IC. fold s1 in IC. cbn [firstn]. rewrite firstn_nil. exact IC.
  Qed.
End Core.

Lemma clear_aux_dropped {V} (t : topo) (st : net V) : aux_dropped t st (clear_aux t st).
Proof.
  unfold clear_aux, aux_dropped. enough (H : forall (l : list agent_id) (st : net V), let st' := fold_left (fun st a => upd_agent a drop_aux st) l st in
    n_iter st' = n_iter st /\ n_cache st' = n_cache st /\ n_conn st' = n_conn st /\ n_draws st' = n_draws st /\ n_log st' = n_log st /\
    forall a, let o := n_agents st a in let o' := n_agents st' a in
      a_x o' = a_x o /\ a_hist o' = a_hist o /\ a_msgs o' = a_msgs o /\ a_nx o' = a_nx o /\
      a_sent o' = a_sent o /\ a_recv o' = a_recv o /\ a_drop o' = a_drop o /\ a_nsel o' = a_nsel o /\
      (In a l -> a_aux o' = []) /\ (~ In a l -> a_aux o' = a_aux o)) by apply H.
  clear. induction l as [|b l IH]; intro st; cbn [fold_left].
  - cbn zeta. do 5 (split; [reflexivity|]). intro a. do 8 (split; [reflexivity|]). split; [intros []|reflexivity].
  - specialize (IH (upd_agent b drop_aux st)). cbn zeta in *. destruct IH as (H1 & H2 & H3 & H4 & H5 & H6).
    split; [exact H1|]. split; [exact H2|]. split; [exact H3|]. split; [exact H4|]. split; [exact H5|].
    intro a. destruct (H6 a) as (G1 & G2 & G3 & G4 & G5 & G6 & G7 & G8 & G9 & G10). clear H6.
    set (o' := n_agents (fold_left _ l _) a) in *. clearbody o'. cbn [upd_agent n_agents] in *. unfold upd in *.
    destruct (Nat.eqb_spec b a) as [E|NE]; destruct (Nat.eqb_spec a b) as [E'|NE']; try congruence; cbn [drop_aux a_x a_hist a_aux a_msgs a_nx a_sent a_recv a_drop a_nsel] in *;
      repeat (split; [assumption|]).
    + split; [|intro N; exfalso; apply N; now left]. intros _. destruct (in_dec Nat.eq_dec a l); auto.
    + split; [intros [?|?]; [congruence|auto]|]. intro N. apply G10. intro. apply N. now right.
Qed.
