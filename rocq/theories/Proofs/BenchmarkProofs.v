(** The benchmark level: crashes, resumes and extensions. *)
From Coq Require Import List Bool Arith ZArith Lia Permutation Sorted.
From Verif.Model Require Import PyDict History Messages Network Runner Checkpoint Benchmark.
From Verif.Spec Require Import RunnerSpec CheckpointSpec BenchmarkSpec.
From Verif.Proofs Require Import PyDictProofs CheckpointProofs.
Import ListNotations.
Open Scope nat_scope.

(** ---- lists ---- *)
Lemma all_some_ok {X Y} (f : X -> option Y) (R : X -> Y -> Prop) l : (forall x, In x l -> exists y, f x = Some y /\ R x y) ->
  exists ys, all_some f l = Some ys /\ Forall2 R l ys.
Proof.
  induction l as [|x l IH]; intro H; cbn; [exists []; auto|].
  destruct (H x (or_introl eq_refl)) as (y & -> & RY). destruct IH as (ys & -> & F); [intros; apply H; now right|]. exists (y :: ys). auto.
Qed.
Lemma all_some_F2 {X Y} (f : X -> option Y) : forall l ys, all_some f l = Some ys <-> Forall2 (fun x y => f x = Some y) l ys.
Proof.
  induction l as [|x l IH]; intro ys; cbn.
  - split; [intros [= <-]; constructor|inversion 1; auto].
  - destruct (f x) as [y|] eqn:E.
    + destruct (all_some f l) as [zs|] eqn:F.
      * split; [intros [= <-]; constructor; [auto|now apply IH]|]. inversion 1; subst. rewrite E in *. f_equal. f_equal; [congruence|]. apply IH in H4. congruence.
      * split; [discriminate|]. inversion 1; subst. apply IH in H4. discriminate.
    + split; [discriminate|]. inversion 1; subst. congruence.
Qed.
Lemma F2_perm {X Y} (R : X -> Y -> Prop) l l' : Permutation l l' -> forall ys, Forall2 R l ys -> exists ys', Forall2 R l' ys' /\ Permutation ys ys'.
Proof.
  induction 1; intros ys F.
  - inversion F; subst. exists []; auto.
  - inversion F; subst. destruct (IHPermutation _ H4) as (zs & F' & P'). exists (y :: zs). auto.
  - inversion F as [|? y1 ? ys1 H1 H2]; subst. inversion H2 as [|? y2 ? ys2 H3 H4]; subst. exists (y2 :: y1 :: ys2). split; [auto|constructor].
  - destruct (IHPermutation1 _ F) as (zs & F' & P'). destruct (IHPermutation2 _ F') as (ws & F'' & P''). exists ws. split; [auto|]. eapply perm_trans; eauto.
Qed.
Lemma firstn_prefix {X} k (l : list X) : exists r, l = firstn k l ++ r. Proof. exists (skipn k l). now rewrite firstn_skipn. Qed.
Lemma F2_nth {X Y} (R : X -> Y -> Prop) l l' : Forall2 R l l' -> forall i x, nth_error l i = Some x -> exists y, nth_error l' i = Some y /\ R x y.
Proof. induction 1; intros [|i] z E; cbn in *; try discriminate; [injection E as <-; eauto|eauto]. Qed.
Lemma nth_combine {X} (l : list X) : forall b i x, nth_error l i = Some x -> nth_error (combine (seq b (length l)) l) i = Some (b + i, x).
Proof. induction l as [|y l IH]; intros b [|i] x E; cbn in *; try discriminate; [injection E as <-; now rewrite Nat.add_0_r|]. rewrite (IH (S b) i x E). f_equal. f_equal. lia. Qed.

(** ---- sorting by trial ---- *)
Section Sort.
  Context {V : Type}.
  Notation ord := (fun x y : nat * net V => fst x <= fst y).
  Lemma ins_perm x (l : list (nat * net V)) : Permutation (insert_trial x l) (x :: l).
  Proof. induction l as [|y l IH]; cbn; auto. destruct (_ <=? _); auto. eapply perm_trans; [apply perm_skip, IH|constructor]. Qed.
  Lemma sortt_perm (l : list (nat * net V)) : Permutation (sort_trials l) l.
  Proof. induction l as [|x l IH]; cbn; auto. eapply perm_trans; [apply ins_perm|]. now apply perm_skip. Qed.
  Lemma ins_sorted x (l : list (nat * net V)) : StronglySorted ord l -> StronglySorted ord (insert_trial x l).
  Proof.
    induction 1 as [|y l SS IH F]; cbn; [repeat constructor|]. destruct (Nat.leb_spec (fst x) (fst y)).
    - constructor; [constructor; auto|]. constructor; [auto|]. eapply Forall_impl; [|exact F]. cbn. lia.
    - constructor; [auto|]. rewrite Forall_forall in *. intros z Hz. apply (Permutation_in _ (ins_perm x l)) in Hz. destruct Hz as [<-|Hz]; [lia|auto].
  Qed.
  Lemma sortt_sorted (l : list (nat * net V)) : StronglySorted ord (sort_trials l).
  Proof. induction l; cbn; [constructor|now apply ins_sorted]. Qed.
  Lemma sorted_unique (l l' : list (nat * net V)) : StronglySorted ord l -> StronglySorted ord l' -> NoDup (map fst l) -> Permutation l l' -> l = l'.
  Proof.
    intros S1. revert l'. induction S1 as [|x l S1 IH F]; intros l' S2 ND P.
    - apply Permutation_nil in P. now subst.
    - destruct l' as [|y l']; [apply Permutation_sym, Permutation_nil_cons in P; destruct P|].
      assert (E : x = y).
      { destruct (Permutation_in _ P (or_introl eq_refl)) as [->|I1]; auto. destruct (Permutation_in _ (Permutation_sym P) (or_introl eq_refl)) as [->|I2]; auto.
        inversion S2; subst. rewrite Forall_forall in *. pose proof (F y I2). pose proof (H2 x I1). exfalso. cbn in ND. inversion ND; subst. apply H5. apply in_map_iff. exists y. split; [lia|auto]. }
      subst y. f_equal. apply IH; [now inversion S2|now inversion ND|now apply Permutation_cons_inv in P].
  Qed.
End Sort.

(** ---- directories ---- *)
Section B.
  Context {V St : Type}.
  Notation world := (world V St).
  Lemma bapply_app (l1 l2 : list (beffect V St)) s : bapply_all (l1 ++ l2) s = bapply_all l2 (bapply_all l1 s). Proof. apply fold_left_app. Qed.
  Lemma of_trial_app a i (l1 l2 : list (beffect V St)) : of_trial a i (l1 ++ l2) = of_trial a i l1 ++ of_trial a i l2. Proof. apply flat_map_app. Qed.
  Lemma b_dir_all (l : list (beffect V St)) : forall s a i, b_dir (bapply_all l s) a i = apply_all (of_trial a i l) (b_dir s a i).
  Proof.
    induction l as [|x l IH]; intros s a i; [reflexivity|]. change (bapply_all (x :: l) s) with (bapply_all l (bapply s x)). rewrite IH.
    destruct x as [| | | | | |b j y]; cbn [bapply b_dir of_trial flat_map]; auto. rewrite (Nat.eqb_sym b a), (Nat.eqb_sym j i).
    destruct (Nat.eqb_spec a b); destruct (Nat.eqb_spec i j); cbn [andb app]; subst; reflexivity.
  Qed.
  Lemma of_trial_firstn a i (l : list (beffect V St)) : forall k, exists j, of_trial a i (firstn k l) = firstn j (of_trial a i l).
  Proof.
    induction l as [|x l IH]; intros [|k]; cbn [firstn]; try (exists 0; reflexivity).
    destruct (IH k) as (j & E). change (x :: firstn k l) with ([x] ++ firstn k l). change (x :: l) with ([x] ++ l). rewrite !of_trial_app, E.
    destruct x as [| | | | | |b j' y]; cbn; try (exists j; reflexivity). destruct (_ && _); [exists (S j); reflexivity|exists j; reflexivity].
  Qed.
  Lemma trials_top (l : list (beffect V St)) : trials_only l -> forall s, b_meta (bapply_all l s) = b_meta s /\ b_algs (bapply_all l s) = b_algs s /\ b_prob (bapply_all l s) = b_prob s.
  Proof.
    induction l as [|x l IH]; intros T s; [auto|]. change (bapply_all (x :: l) s) with (bapply_all l (bapply s x)).
    destruct (IH (fun y Hy => T y (or_intror Hy)) (bapply s x)) as (-> & -> & ->). destruct (T x (or_introl eq_refl)) as (a & i & y & ->). auto.
  Qed.
  Lemma trials_firstn k (l : list (beffect V St)) : trials_only l -> trials_only (firstn k l).
  Proof. intros T x I. apply T. destruct (firstn_prefix k l) as (r & E). rewrite E. apply in_app_iff. auto. Qed.
  Lemma unmarks_trials na n (s : bdir V St) : trials_only (unmarks na n s).
  Proof.
    intros x I. unfold unmarks in I. apply in_flat_map in I. destruct I as (a & _ & I). apply in_flat_map in I. destruct I as (i & _ & I).
    destruct (is_complete _); [|destruct I]. destruct I as [<-|[]]. eauto.
  Qed.
  Lemma flat_map_none {X Y} (f : X -> list Y) l : (forall x, In x l -> f x = []) -> flat_map f l = [].
  Proof. induction l as [|x l IH]; intro H; cbn; auto. rewrite H by now left. apply IH. intros. apply H. now right. Qed.
  Lemma flat_map_one {Y} (f : nat -> list Y) k : forall b, b <= k -> (forall x, x <> k -> f x = []) -> forall n, flat_map f (seq b n) = if k <? b + n then f k else [].
  Proof.
    intros b Hb H n. revert b Hb. induction n as [|n IH]; intros b Hb; cbn [seq flat_map].
    - rewrite Nat.add_0_r. destruct (Nat.ltb_spec k b); [lia|auto].
    - destruct (Nat.eq_dec b k) as [->|NE].
      + rewrite flat_map_none by (intros x I; apply in_seq in I; apply H; lia). rewrite app_nil_r. destruct (Nat.ltb_spec k (k + S n)); [auto|lia].
      + rewrite H by auto. cbn [app]. rewrite IH by lia. replace (S b + n) with (b + S n) by lia. reflexivity.
  Qed.
  Lemma flat_map_flat_map {X Y Z} (f : X -> list Y) (g : Y -> list Z) l : flat_map g (flat_map f l) = flat_map (fun x => flat_map g (f x)) l.
  Proof. induction l as [|x l IH]; cbn; auto. now rewrite flat_map_app, IH. Qed.
  Lemma flat_map_ext' {X Y} (f g : X -> list Y) l : (forall x, f x = g x) -> flat_map f l = flat_map g l.
  Proof. intro H. induction l; cbn; auto. now rewrite H, IHl. Qed.
  Lemma of_unmarks a i na n (s : bdir V St) : of_trial a i (unmarks na n s) = if ((a <? na) && (i <? n) && is_complete (b_dir s a i))%bool then [UnlinkComp] else [].
  Proof.
    unfold of_trial, unmarks. rewrite flat_map_flat_map. rewrite (flat_map_one _ a 0); [|lia|].
    - cbn [Nat.add]. destruct (a <? na); [|reflexivity]. rewrite flat_map_flat_map. rewrite (flat_map_one _ i 0); [|lia|].
      + cbn [Nat.add]. destruct (i <? n); [|reflexivity]. destruct (is_complete (b_dir s a i)); [|reflexivity]. cbn. now rewrite !Nat.eqb_refl.
      + intros j NE. destruct (is_complete _); [|reflexivity]. cbn. destruct (Nat.eqb_spec j i); [contradiction|]. now rewrite andb_false_r.
    - intros b NE. rewrite flat_map_flat_map. apply flat_map_none. intros j _. destruct (is_complete _); [|reflexivity]. cbn. destruct (Nat.eqb_spec b a); [contradiction|reflexivity].
  Qed.
  Lemma of_map_trial a i b j (l : list (effect world)) : of_trial a i (map (InTrial b j) l) = if (b =? a) && (j =? i) then l else [].
  Proof. induction l as [|x l IH]; cbn; [now destruct (_ && _)|]. fold (of_trial a i (map (InTrial b j) l)). rewrite IH. destruct (_ && _); reflexivity. Qed.
  Lemma one_by_one_interleaving step keep (pl : plan V St) s : interleaving step keep pl s (one_by_one step keep pl s).
  Proof.
    split.
    - intros x I. unfold one_by_one in I. apply in_flat_map in I. destruct I as (a & _ & I). apply in_flat_map in I. destruct I as (i & _ & I). apply in_map_iff in I. destruct I as (y & <- & _). eauto.
    - intros a i. unfold of_trial, one_by_one. rewrite flat_map_flat_map. rewrite (flat_map_one _ a 0); [|lia|].
      + cbn [Nat.add]. rewrite flat_map_flat_map. rewrite (flat_map_one _ i 0); [|lia|].
        * cbn [Nat.add]. fold (of_trial a i (map (InTrial a i) (trial_effects step keep pl s a i))). rewrite of_map_trial, !Nat.eqb_refl. cbn [andb].
          unfold trial_effects. destruct (nth_error (pl_algs pl) a) eqn:E.
          -- assert (a < length (pl_algs pl)) by (apply nth_error_Some; congruence). destruct (Nat.ltb_spec a (length (pl_algs pl))); [|lia].
             destruct (Nat.ltb_spec i (pl_trials pl)) as [L|L]; [reflexivity|]. destruct (existsb _ _) eqn:X; [|reflexivity]. exfalso.
             apply existsb_exists in X. destruct X as (y & I & Q). apply Nat.eqb_eq in Q. subst y. unfold to_run in I. apply filter_In in I. destruct I as (I & _). apply in_seq in I. lia.
          -- destruct (a <? length (pl_algs pl)), (i <? pl_trials pl); reflexivity.
        * intros j NE. fold (of_trial a i (map (InTrial a j) (trial_effects step keep pl s a j))). rewrite of_map_trial. destruct (Nat.eqb_spec j i); [contradiction|]. now rewrite andb_false_r.
      + intros b NE. rewrite flat_map_flat_map. apply flat_map_none. intros j _. fold (of_trial a i (map (InTrial b j) (trial_effects step keep pl s b j))). rewrite of_map_trial. destruct (Nat.eqb_spec b a); [contradiction|reflexivity].
  Qed.
  Lemma with_iters_id (A : alg V St) : with_iters (al_iters A) A = A. Proof. destruct A; reflexivity. Qed.

  Variables (step : option nat) (algs : list (alg V St)) (p : problem V St) (n : nat).
  Hypothesis POS : forall A, In A algs -> 1 <= al_iters A.
  Definition target (A : alg V St) (m : meta) : nat := al_iters A + m_inc_i m.
  Definition trial_ok (m : meta) (s : bdir V St) : Prop :=
    (forall a A, nth_error algs a = Some A -> forall i,
      exists Ns, reach (p_topo p) (p_period p) A (p_start p a i) step (target A m :: Ns) (b_dir s a i) /\ Forall (fun k => al_iters A <= k < target A m) Ns) /\
    (forall a i, m_trials m + m_inc_t m <= i -> is_complete (b_dir s a i) = false) /\
    (forall a i, length algs <= a -> is_complete (b_dir s a i) = false).
  Definition Ready (m : meta) (s : bdir V St) : Prop :=
    b_meta s = Some (Full m) /\ b_algs s = Some (Full algs) /\ b_prob s = Some (Full p) /\ m_trials m = n /\ m_algs m = length algs /\ trial_ok m s.
  Definition Broken (s : bdir V St) : Prop := resume 0 0 s = None.

  Lemma dirs_ok m m' (s s' : bdir V St) : (forall a i, b_dir s' a i = b_dir s a i) -> m_inc_i m' = m_inc_i m -> m_trials m + m_inc_t m <= m_trials m' + m_inc_t m' -> trial_ok m s -> trial_ok m' s'.
  Proof.
    intros D I T (H1 & H2 & H3). unfold trial_ok, target in *. rewrite I. split; [|split].
    - intros a A E i. rewrite D. auto.
    - intros a i L. rewrite D. apply H2. lia.
    - intros a i L. rewrite D. auto.
  Qed.
  (** running trials *)
  Lemma run_phase m s keep pl l k : Ready m s -> 1 <= keep -> pl_algs pl = map (fun A => with_iters (target A m) A) algs -> pl_prob pl = p -> pl_trials pl = m_trials m + m_inc_t m ->
    interleaving step keep pl s l -> let s' := bapply_all (firstn k l) s in all_json_ok s' -> Ready m s'.
  Proof.
    intros (M & AL & PR & MT & MA & H1 & H2 & H3) KP PA PP PT (TO & IL) s' (_ & JS).
    destruct (trials_top (firstn k l) (trials_firstn k l TO) s) as (E1 & E2 & E3). fold s' in E1, E2, E3.
    assert (D : forall a i, exists j, b_dir s' a i = apply_all (firstn j (trial_effects step keep pl s a i)) (b_dir s a i)).
    { intros a i. unfold s'. rewrite b_dir_all. destruct (of_trial_firstn a i l k) as (j & ->). rewrite IL. eauto. }
    assert (OUT : forall a i, (length algs <= a \/ m_trials m + m_inc_t m <= i) -> b_dir s' a i = b_dir s a i).
    { intros a i O. destruct (D a i) as (j & ->). unfold trial_effects. destruct (nth_error (pl_algs pl) a) eqn:E; [|now destruct j].
      destruct (existsb _ _) eqn:X; [|now destruct j]. exfalso. destruct O as [O|O].
      - rewrite PA in E. assert (nth_error (map (fun A => with_iters (target A m) A) algs) a <> None) by congruence. apply nth_error_Some in H. rewrite map_length in H. lia.
      - apply existsb_exists in X. destruct X as (x & I & Q). apply Nat.eqb_eq in Q. subst x. unfold to_run in I. apply filter_In in I. destruct I as (I & _). apply in_seq in I. lia. }
    split; [congruence|]. split; [congruence|]. split; [congruence|]. split; [auto|]. split; [auto|]. split; [|split].
    - intros a A E i. destruct (H1 a A E i) as (Ns & R & F). exists Ns. split; [|exact F]. pose proof (JS a i) as J. destruct (D a i) as (j & EQ). rewrite EQ in *.
      unfold trial_effects in *. rewrite PA in *. rewrite nth_error_map, E in *. cbn [option_map] in *. destruct (existsb _ _); [|destruct j; exact R].
      unfold bvisit in *. rewrite PP in *. now apply reach_visit.
    - intros a i L. rewrite OUT by auto. auto.
    - intros a i L. rewrite OUT by auto. auto.
  Qed.
  (** the preparation of a resume, possibly cut short *)
  Lemma apply_unlink (d : dir world) : is_complete d = true -> apply d UnlinkComp = unmark d.
  Proof. unfold is_complete, unmark. destruct (d_comp d); [reflexivity|discriminate]. Qed.
  Lemma unmark_incomplete (d : dir world) : is_complete (unmark d) = false.
  Proof. unfold is_complete, unmark. destruct (d_comp d) eqn:E; cbn; auto. now rewrite E. Qed.
  Lemma unmark_phase m s na N k : Ready m s -> Ready m (bapply_all (firstn k (unmarks na N s)) s).
  Proof.
    intros (M & AL & PR & MT & MA & H1 & H2 & H3). set (l := firstn k _).
    destruct (trials_top l (trials_firstn k _ (unmarks_trials na N s)) s) as (E1 & E2 & E3).
    assert (D : forall a i, b_dir (bapply_all l s) a i = b_dir s a i \/ b_dir (bapply_all l s) a i = unmark (b_dir s a i)).
    { intros a i. rewrite b_dir_all. unfold l. destruct (of_trial_firstn a i (unmarks na N s) k) as (j & ->). rewrite of_unmarks.
      destruct ((_ && _ && is_complete (b_dir s a i))%bool) eqn:C; [|left; now destruct j]. destruct j; [now left|]. cbn [firstn]. right.
      assert (E : is_complete (b_dir s a i) = true) by (destruct (is_complete (b_dir s a i)); rewrite ?andb_false_r in C; auto).
      rewrite <- (apply_unlink _ E). destruct j; reflexivity. }
    assert (INC : forall d : dir world, is_complete d = false -> is_complete (unmark d) = false) by (intros; apply unmark_incomplete).
    split; [congruence|]. split; [congruence|]. split; [congruence|]. split; [auto|]. split; [auto|]. split; [|split].
    - intros a A E i. destruct (H1 a A E i) as (Ns & R & F). exists Ns. split; [|exact F]. destruct (D a i) as [-> | ->]; [exact R|now apply reach_unmark].
    - intros a i L. destruct (D a i) as [-> | ->]; auto.
    - intros a i L. destruct (D a i) as [-> | ->]; auto.
  Qed.
  Lemma unmarked m s : Ready m s -> forall N, m_trials m + m_inc_t m <= N -> forall a i, is_complete (b_dir (bapply_all (unmarks (length algs) N s) s) a i) = false.
  Proof.
    intros (_ & _ & _ & _ & _ & _ & H2 & H3) N L a i. rewrite b_dir_all, of_unmarks.
    destruct (Nat.ltb_spec a (length algs)); [|cbn; auto]. destruct (Nat.ltb_spec i N); [|cbn; apply H2; lia]. cbn [andb].
    destruct (is_complete (b_dir s a i)) eqn:E; [|exact E]. cbn. unfold apply_all. cbn. reflexivity.
  Qed.
  Lemma meta_Ready m m' s : Ready m s -> m_trials m' = m_trials m -> m_algs m' = m_algs m -> m_inc_t m <= m_inc_t m' -> m_inc_i m' = m_inc_i m -> Ready m' (bapply_all (put_meta m') s).
  Proof.
    intros (M & AL & PR & MT & MA & T) E1 E2 L E3. split; [reflexivity|]. split; [exact AL|]. split; [exact PR|]. split; [congruence|]. split; [congruence|].
    apply (dirs_ok m m' s); auto. lia.
  Qed.
  Lemma raise_Ready m m' s : Ready m s -> m_trials m' = m_trials m -> m_algs m' = m_algs m -> m_inc_t m' = m_inc_t m -> m_inc_i m < m_inc_i m' ->
    (forall a i, is_complete (b_dir s a i) = false) -> Ready m' (bapply_all (put_meta m') s).
  Proof.
    intros (M & AL & PR & MT & MA & H1 & H2 & H3) E1 E2 L E3 NC. split; [reflexivity|]. split; [exact AL|]. split; [exact PR|]. split; [congruence|]. split; [congruence|].
    cbn. unfold trial_ok. cbn. split; [|auto]. intros a A E i. destruct (H1 a A E i) as (Ns & R & F). exists (target A m :: Ns). unfold target in *. split.
    - apply reach_raise; [exact R|apply NC|lia].
    - constructor; [lia|]. eapply Forall_impl; [|exact F]. cbn. lia.
  Qed.
  Lemma cut2 {X} (x y : X) k : firstn k [x; y] = [] \/ firstn k [x; y] = [x] \/ firstn k [x; y] = [x; y].
  Proof. destruct k as [|[|[|k]]]; auto. Qed.
  Lemma put_cut m (s : bdir V St) k : b_meta (bapply_all (firstn k (put_meta m)) s) = Some Torn \/ bapply_all (firstn k (put_meta m)) s = s \/ bapply_all (firstn k (put_meta m)) s = bapply_all (put_meta m) s.
  Proof. unfold put_meta. destruct (cut2 (@TruncMeta V St) (WriteMeta m) k) as [-> |[-> | ->]]; auto. Qed.

  Definition meta_after (inc_i inc_t : nat) (m : meta) : meta := mkMeta (m_trials m) (m_algs m) (inc_t + m_inc_t m) (inc_i + m_inc_i m).
  Lemma meta_eta m : mkMeta (m_trials m) (m_algs m) (m_inc_t m) (m_inc_i m) = m. Proof. destruct m; reflexivity. Qed.
  Lemma prep_phase m s inc_i inc_t pl : Ready m s -> (extended s = true -> inc_i <> 0) -> resume inc_i inc_t s = Some pl ->
    let m' := meta_after inc_i inc_t m in
    pl_algs pl = map (fun A => with_iters (target A m') A) algs /\ pl_prob pl = p /\ pl_trials pl = m_trials m' + m_inc_t m' /\
    Ready m' (prepared pl s) /\ (inc_i <> 0 -> forall a i, is_complete (b_dir (prepared pl s) a i) = false) /\ (inc_i = 0 -> forall a i, b_dir (prepared pl s) a i = b_dir s a i) /\
    forall k, b_meta (bapply_all (firstn k (pl_prep pl)) s) <> Some Torn -> exists m'', Ready m'' (bapply_all (firstn k (pl_prep pl)) s).
  Proof.
    intros RD DI RS m'. pose proof RD as (M & AL & PR & MT & MA & T). unfold resume in RS. rewrite M, AL, PR in RS. injection RS as <-. cbn [pl_algs pl_prob pl_trials pl_prep]. unfold prepared. cbn [pl_prep].
    set (m1 := mkMeta (m_trials m) (m_algs m) (inc_t + m_inc_t m) (m_inc_i m)). set (prep_t := if inc_t =? 0 then [] else put_meta m1).
    set (m2 := mkMeta (m_trials m) (m_algs m) (if inc_t =? 0 then m_inc_t m else inc_t + m_inc_t m) (inc_i + m_inc_i m)).
    set (s1 := bapply_all prep_t s). set (mt := if inc_t =? 0 then m else m1).
    assert (R1 : Ready mt s1).
    { unfold mt, s1, prep_t. destruct (inc_t =? 0); [exact RD|]. apply (meta_Ready m m1); auto; cbn; lia. }
    assert (TP : forall k, b_meta (bapply_all (firstn k prep_t) s) <> Some Torn -> exists m'', Ready m'' (bapply_all (firstn k prep_t) s)).
    { intros k NT. unfold s1, mt, prep_t in *. destruct (inc_t =? 0); [destruct k; eexists; exact RD|]. destruct (put_cut m1 s k) as [E|[E|E]]; [contradiction|rewrite E; eauto|rewrite E; eauto]. }
    assert (DS : forall a i, b_dir s1 a i = b_dir s a i) by (intros; unfold s1, prep_t; destruct (inc_t =? 0); reflexivity).
    assert (ET : (if inc_t =? 0 then m_inc_t m else inc_t + m_inc_t m) = inc_t + m_inc_t m) by (destruct (Nat.eqb_spec inc_t 0); subst; auto).
    assert (MT' : mt = m1). { unfold mt, m1. destruct (Nat.eqb_spec inc_t 0) as [->|]; auto. cbn. now rewrite meta_eta. }
    assert (Em2 : m2 = m') by (unfold m2, m', meta_after; now rewrite ET).
    destruct (Nat.eqb_spec inc_i 0) as [E0|NE].
    - assert (Z : m_inc_i m = 0).
      { unfold extended in DI. rewrite M in DI. destruct (Nat.eqb_spec (m_inc_i m) 0) as [|Q]; auto. cbn in DI. exfalso. now apply DI. }
      assert (Em : m' = m1) by (unfold m', meta_after, m1; now rewrite E0).
      rewrite app_nil_r. fold s1. split; [|split; [auto|split; [reflexivity|split; [|split; [|split]]]]].
      + rewrite <- (map_id algs) at 1. apply map_ext. intro A. symmetry. unfold target, m', meta_after. cbn. rewrite E0, Z, !Nat.add_0_r. apply with_iters_id.
      + rewrite Em, <- MT'. exact R1.
      + intro; contradiction.
      + auto.
      + exact TP.
    - set (N := m_trials m + (inc_t + m_inc_t m)) in *.
      assert (EU : unmarks (length algs) N s = unmarks (length algs) N s1).
      { unfold unmarks. apply flat_map_ext'. intro a. apply flat_map_ext'. intro i. now rewrite DS. }
      rewrite EU. set (u := unmarks (length algs) N s1). set (s2 := bapply_all u s1).
      assert (R2 : Ready mt s2). { unfold s2. rewrite <- (firstn_all u). apply unmark_phase. exact R1. }
      assert (NC : forall a i, is_complete (b_dir s2 a i) = false). { apply (unmarked mt s1 R1). rewrite MT'. cbn. unfold N. lia. }
      assert (R3 : Ready m' (bapply_all (put_meta m2) s2)). { rewrite Em2. apply (raise_Ready mt m'); auto; rewrite MT'; cbn; lia. }
      split; [|split; [auto|split; [reflexivity|split; [|split; [|split]]]]].
      + apply map_ext. intro A. reflexivity.
      + rewrite !bapply_app. exact R3.
      + intros _ a i. rewrite !bapply_app. fold s1 s2. apply (NC a i).
      + intro; contradiction.
      + intros k NT. destruct (firstn_split k prep_t (u ++ put_meta m2)) as [E|(k' & E)]; rewrite E in *; [now apply TP|]. rewrite bapply_app in *. fold s1 in NT |- *.
        destruct (firstn_split k' u (put_meta m2)) as [E'|(k'' & E')]; rewrite E' in *; [exists mt; apply unmark_phase; exact R1|].
        rewrite bapply_app in *. fold s2 in NT |- *. destruct (put_cut m2 s2 k'') as [Q|[Q|Q]]; [contradiction|rewrite Q; eauto|rewrite Q; eauto].
  Qed.

  Lemma history_Ready reqs s : history step algs p n reqs s -> resume 0 0 s = None \/ exists m, Ready m s.
  Proof.
    induction 1 as [keep k s' KP (l & IL & ->) JS|reqs s inc_i inc_t pl keep k s' H IH DI KP RS (l & IL & ->) JS].
    - assert (R0 : Ready (mkMeta n (length algs) 0 0) (prepared (fresh algs p n) empty_b)).
      { split; [reflexivity|]. split; [reflexivity|]. split; [reflexivity|]. split; [reflexivity|]. split; [reflexivity|]. split; [|split]; [|reflexivity|reflexivity].
        intros a A E i. exists []. split; [|constructor]. apply reach_new. unfold target. cbn. apply nth_error_In in E. apply POS in E. lia. }
      destruct (firstn_split k (pl_prep (fresh algs p n)) l) as [E|(k' & E)]; rewrite E in *.
      + cbn [pl_prep fresh] in *. unfold initialize in *.
        destruct k as [|[|[|[|[|[|[|k]]]]]]]; try (left; reflexivity); right; eexists; exact R0.
      + right. exists (mkMeta n (length algs) 0 0). rewrite bapply_app in *. apply (run_phase _ _ keep (fresh algs p n) l k' R0 KP); auto.
        * cbn. rewrite <- (map_id algs) at 1. apply map_ext. intro A. symmetry. unfold target. cbn. rewrite Nat.add_0_r. apply with_iters_id.
    - destruct IH as [B|(m & R)].
      + exfalso. unfold resume in *. destruct (b_meta s) as [[|?]|], (b_prob s) as [[|?]|], (b_algs s) as [[|?]|]; discriminate.
      + right. destruct (prep_phase m s inc_i inc_t pl R DI RS) as (PA & PP & PT & R' & _ & _ & CUT).
        destruct (firstn_split k (pl_prep pl) l) as [E|(k' & E)]; rewrite E in *.
        * apply CUT. apply JS.
        * eexists. rewrite bapply_app in *. apply (run_phase (meta_after inc_i inc_t m) (prepared pl s) keep pl l k' R' KP PA PP PT IL JS).
  Qed.
End B.
