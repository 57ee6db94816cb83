From Coq Require Import Reals List Bool Arith ZArith Lia Lra Permutation FunctionalExtensionality.
From Verif.Model Require Import Vec Costs Batch EmpiricalRisk.
From Verif.Spec Require Import CostSpec BatchSpec EmpiricalSpec.
From Verif.Proofs Require Import CostProofs CostOk VecProofs CostAnalysis CostBuiltin BatchProofs.
Import ListNotations.
Open Scope R_scope.

(** *** sums over lists *)
Lemma rsum_cons : forall a l, rsum (a :: l) = a + rsum l.
Proof.
  assert (H : forall l a, fold_left Rplus l a = a + fold_left Rplus l 0).
  { induction l as [|b l IH]; intros a; cbn; [lra|]. rewrite IH, (IH (0 + b)). lra. }
  intros. unfold rsum. cbn. rewrite H. lra.
Qed.
Lemma rsum_nil : rsum [] = 0. Proof. reflexivity. Qed.
Lemma rsum_perm : forall l l', Permutation l l' -> rsum l = rsum l'.
Proof. induction 1; rewrite ?rsum_cons; try lra. Qed.
Lemma rsum_map_add : forall {A} (f g : A -> R) l, rsum (map (fun x => f x + g x) l) = rsum (map f l) + rsum (map g l).
Proof. induction l; cbn [map]; rewrite ?rsum_cons, ?rsum_nil; [lra|]. rewrite IHl. lra. Qed.
Lemma rsum_map_scal : forall {A} (f : A -> R) a l, rsum (map (fun x => a * f x) l) = a * rsum (map f l).
Proof. induction l; cbn [map]; rewrite ?rsum_cons, ?rsum_nil; [lra|]. rewrite IHl. lra. Qed.
Lemma rsum_map_ext : forall {A} (f g : A -> R) l, (forall x, In x l -> f x = g x) -> rsum (map f l) = rsum (map g l).
Proof. intros A f g l H. f_equal. now apply map_ext_in. Qed.
Lemma rmean_perm : forall l l', Permutation l l' -> rmean l = rmean l'.
Proof. intros. unfold rmean. rewrite (rsum_perm l l') by assumption. now rewrite (Permutation_length H). Qed.
Lemma rmean_map : forall {A} (f : A -> R) l, rmean (map f l) = rsum (map f l) / INR (length l).
Proof. intros. unfold rmean. now rewrite map_length. Qed.

(** *** Python indexing *)
Lemma py_index_iff : forall D i p, py_index D i = Some p <->
  (- Z.of_nat (length D) <= i < Z.of_nat (length D))%Z /\ nth_error D (Z.to_nat (i mod Z.of_nat (length D))) = Some p.
Proof.
  intros D i p. unfold py_index. set (m := Z.of_nat (length D)).
  destruct (Z.leb_spec 0 i), (Z.ltb_spec i m); cbn [andb].
  - rewrite Z.mod_small by lia. intuition lia.
  - destruct (Z.leb_spec (- m) i), (Z.ltb_spec i 0); cbn [andb]; split; try discriminate; lia.
  - destruct (Z.leb_spec (- m) i), (Z.ltb_spec i 0); cbn [andb]; try (split; [discriminate|lia]); try lia.
    replace (i mod m)%Z with (i + m)%Z by (apply (Z.mod_unique i m (-1)); lia). intuition lia.
  - lia.
Qed.
Lemma py_rows_names : forall D l ps, py_rows D l = Some ps <-> names D l ps.
Proof.
  intros D. induction l as [|i l IH]; intros ps; cbn.
  - split; [intros [= <-]; constructor|intros H; inversion H; reflexivity].
  - split.
    + destruct (py_index D i) eqn:E; [|discriminate]. destruct (py_rows D l) eqn:E2; [|discriminate]. intros [= <-].
      constructor; [now apply py_index_iff|now apply IH].
    + intros H. inversion H as [|? p ? ps' H1 H2]; subst. apply py_index_iff in H1. apply IH in H2. now rewrite H1, H2.
Qed.
Lemma py_rows_none : forall D l, py_rows D l = None <-> exists i, In i l /\ ~ (- Z.of_nat (length D) <= i < Z.of_nat (length D))%Z.
Proof.
  intros D. induction l as [|i l IH]; cbn.
  - split; [discriminate|intros (i & [] & _)].
  - destruct (py_index D i) as [p|] eqn:E.
    + apply py_index_iff in E. destruct (py_rows D l) eqn:E2.
      * split; [discriminate|]. intros (j & [<-|Hj] & Hn); [lia|]. assert (N : @None dataset = None) by reflexivity.
        destruct IH as [_ IH]. discriminate IH. eauto.
      * split; [|auto]. intros _. destruct IH as [IH _]. destruct (IH eq_refl) as (j & Hj & Hn). eauto.
    + split; [|auto]. intros _. exists i. split; [auto|]. intros H.
      assert (H2 : exists p, nth_error D (Z.to_nat (i mod Z.of_nat (length D))) = Some p).
      { destruct (nth_error D _) eqn:E2; [eauto|]. apply nth_error_None in E2.
        assert (0 <= i mod Z.of_nat (length D) < Z.of_nat (length D))%Z by (apply Z.mod_pos_bound; lia). lia. }
      destruct H2 as [p H2]. assert (E3 : py_index D i = Some p) by (apply py_index_iff; auto). congruence.
Qed.
Lemma names_length : forall {S} (D : list S) l ps, names D l ps -> length ps = length l.
Proof. intros S D l ps H. unfold names in H. induction H; cbn; congruence. Qed.
Lemma skipn_S_tl : forall {A} k (l : list A), skipn (S k) l = tl (skipn k l).
Proof. induction k as [|k IH]; intros [|a l]; try reflexivity. exact (IH l). Qed.
Lemma names_seq : forall (D : dataset), names D (zs (seq 0 (length D))) D.
Proof.
  intros D. apply py_rows_names.
  assert (H : forall k, (k <= length D)%nat -> py_rows D (zs (seq (length D - k) k)) = Some (skipn (length D - k) D)).
  { induction k as [|k IH]; intros Hk; cbn.
    - rewrite Nat.sub_0_r, skipn_all. reflexivity.
    - replace (S (length D - S k)) with (length D - k)%nat by lia.
      unfold zs in IH. rewrite (IH ltac:(lia)).
      destruct (nth_error D (length D - S k)) as [p|] eqn:E; [|apply nth_error_None in E; lia].
      assert (P : py_index D (Z.of_nat (length D - S k)) = Some p).
      { apply py_index_iff. split; [lia|]. rewrite Z.mod_small by lia. now rewrite Nat2Z.id. }
      rewrite P. f_equal. apply nth_error_split in E. destruct E as (l1 & l2 & E & El).
      assert (E1 : skipn (length D - S k) D = p :: l2) by (rewrite E at 2; rewrite <- El, skipn_app, skipn_all, Nat.sub_diag; reflexivity).
      rewrite E1. f_equal. replace (length D - k)%nat with (1 + (length D - S k))%nat by lia.
      cbn [Nat.add]. now rewrite skipn_S_tl, E1. }
  specialize (H (length D) (le_n _)). rewrite Nat.sub_diag in H. exact H.
Qed.

(** *** least squares on the rows of a list of samples *)
Section LS.
  Variable d : nat.
  Lemma residuals_t1 : forall ps x, residuals d (map fst ps) (T1 (map snd ps)) x = map (fun p => dot d (fst p) x - snd p) ps.
  Proof. intros. cbn. unfold lsub, mulrows. induction ps as [|p ps IH]; cbn; [reflexivity|]. f_equal. exact IH. Qed.
  Lemma residuals_full : forall D x, residuals d (map fst D) (squeeze (map snd D)) x = map (fun p => dot d (fst p) x - snd p) D.
  Proof. intros D x. destruct D as [|p [|q D]]; [reflexivity..|]. exact (residuals_t1 (p :: q :: D) x). Qed.
  Lemma ls_value : forall ps x, let r := map (fun p => dot d (fst p) x - snd p) ps in
    1/2 * ldot r r / INR (length ps) = rmean (map (sq_loss d x) ps).
  Proof.
    intros. rewrite rmean_map. unfold Rdiv. f_equal. unfold ldot, r. clear r. induction ps as [|p ps IH]; cbn [map combine].
    - rewrite rsum_nil. lra.
    - rewrite !rsum_cons. cbn [fst snd]. rewrite Rmult_plus_distr_l, IH. change (sq_loss d x p) with (1/2 * (dot d (fst p) x - snd p) ^ 2). field.
  Qed.
  Lemma gram_mulv : forall rows x i, mulv d (gram rows) x i = rsum (map (fun a => a i * dot d a x) rows).
  Proof.
    intros rows x i. unfold mulv, gram. induction rows as [|a rows IH]; cbn [map].
    - rewrite rsum_nil. rewrite (sumn_ext d _ (fun _ => 0)) by (intros; unfold rsum; cbn; ring). apply sumn_zero.
    - rewrite rsum_cons, <- IH. rewrite (sumn_ext d _ (fun j => a i * (a j * x j) + rsum (map (fun a => a i * a j) rows) * x j))
        by (intros; cbn beta; rewrite rsum_cons; ring).
      rewrite sumn_plus. f_equal. rewrite sumn_scal. reflexivity.
  Qed.
  Lemma ls_grad : forall ps x, vscal (/ INR (length ps)) (vsub (mulv d (gram (map fst ps)) x) (tmulv (map fst ps) (map snd ps)))
    = vmean (map (sq_grad d x) ps).
  Proof.
    intros. apply functional_extensionality. intros i. unfold vscal, vsub, vmean. rewrite map_map, rmean_map, gram_mulv.
    unfold Rdiv. rewrite Rmult_comm. f_equal. unfold tmulv, sq_grad. induction ps as [|p ps IH]; cbn [map combine].
    - rewrite rsum_nil. lra.
    - rewrite !rsum_cons. cbn [fst snd]. rewrite <- IH. ring.
  Qed.
  Lemma ls_hess : forall ps, mscal (/ INR (length ps)) (gram (map fst ps)) = mmean (map sq_hess ps).
  Proof.
    intros. apply functional_extensionality. intros i. apply functional_extensionality. intros j.
    unfold mscal, mmean, gram. rewrite !map_map, rmean_map. unfold sq_hess, Rdiv. ring.
  Qed.
  Lemma ls_rows : forall ps x, map (fun p => vscal (fst p) (snd p)) (combine (map (fun p => dot d (fst p) x - snd p) ps) (map fst ps))
    = map (sq_grad d x) ps.
  Proof. induction ps as [|p ps IH]; intros x; cbn; [reflexivity|]. f_equal. apply IH. Qed.
  Lemma vmean_perm : forall (f : vec * R -> vec) ps ps', Permutation ps ps' -> vmean (map f ps) = vmean (map f ps').
  Proof. intros. apply functional_extensionality. intros i. unfold vmean. apply rmean_perm. now do 2 apply Permutation_map. Qed.
  Lemma mmean_perm : forall (f : vec * R -> mat) ps ps', Permutation ps ps' -> mmean (map f ps) = mmean (map f ps').
  Proof. intros. do 2 (apply functional_extensionality; intros ?). unfold mmean. apply rmean_perm. now do 2 apply Permutation_map. Qed.

  Lemma len_ne : forall l : list Z, l <> [] -> Nat.eqb (length l) 0 = false.
  Proof. intros l Hl. destruct l; [congruence|reflexivity]. Qed.
  Section Req.
    Variables (perm : nat -> list nat -> list nat) (D : dataset) (b : nat) (ix : indices) (s s' : sampler) (l : list Z) (ps : dataset).
    Hypothesis Hs : sample_batch_indices perm (length D) b ix s = (BOk l, s').
    Hypothesis Hn : names D l ps.
    Hypothesis Hl : l <> [].
    Lemma lr_data : exists qs bs, lr_batch_data perm D b ix s = (Some (map fst qs, bs, length l), s') /\
      (length qs = length l) /\ (bs = T1 (map snd qs) \/ (length D = 1%nat /\ exists y, bs = T0 y)) /\
      (forall x, residuals d (map fst qs) bs x = map (fun p => dot d (fst p) x - snd p) qs) /\
      ((length l <> length D \/ ps = D) -> qs = ps) /\
      ((length l <> length D \/ Permutation ps D) -> Permutation qs ps).
    Proof.
      unfold lr_batch_data. rewrite Hs. destruct (Nat.eqb_spec (length l) (length D)) as [E|E].
      - exists D, (squeeze (map snd D)). split; [reflexivity|]. split; [auto|]. split; [|split; [intros; apply residuals_full|]].
        + destruct D as [|p [|q D']]; cbn; [left; reflexivity|right; split; eauto|left; reflexivity].
        + split; [intros [H|H]; [contradiction|auto]|intros [H|H]; [contradiction|now apply Permutation_sym]].
      - apply py_rows_names in Hn. rewrite Hn. exists ps, (T1 (map snd ps)). split; [reflexivity|].
        split; [apply py_rows_names in Hn; now apply names_length with D|]. split; [auto|].
        split; [intros; apply residuals_t1|]. split; auto.
    Qed.
    Lemma lr_value : (length l <> length D \/ Permutation ps D) -> forall x,
      lr_function d perm D b x ix s = (OVal (rmean (map (sq_loss d x) ps)), s') /\
      lr_hessian perm D b ix s = (OVal (mmean (map sq_hess ps)), s') /\
      (length D <> 1%nat -> lr_gradient d perm D b x ix s = (OVal (GVec (vmean (map (sq_grad d x) ps))), s')).
    Proof.
      intros Hc x. destruct lr_data as (qs & bs & Hd & Hlen & Hb & Hr & _ & Hp). specialize (Hp Hc).
      unfold lr_function, lr_hessian, lr_gradient. rewrite Hd, (len_ne l Hl), Hr, <- Hlen. split; [|split].
      - rewrite ls_value. now rewrite (rmean_perm _ _ (Permutation_map (sq_loss d x) Hp)).
      - rewrite ls_hess. now rewrite (mmean_perm _ _ _ Hp).
      - intros H1. destruct Hb as [->|[H _]]; [|contradiction]. rewrite ls_grad. now rewrite (vmean_perm _ _ _ Hp).
    Qed.
    Lemma lr_rows_value : (length l <> length D \/ ps = D) -> forall x, lr_rows d perm D b x ix s = (OVal (map (sq_grad d x) ps), s').
    Proof.
      intros Hc x. destruct lr_data as (qs & bs & Hd & Hlen & Hb & Hr & Hq & _). specialize (Hq Hc). subst qs.
      unfold lr_rows. rewrite Hd, Hr, ls_rows. reflexivity.
    Qed.
  End Req.
End LS.
