(** C28: empirical risks are means over the requested samples; their constants,
    derivatives and proximals (C27, C56, C57); C58: class labels. *)
From Coq Require Import Reals List Bool Arith ZArith Permutation FunctionalExtensionality Lia Lra.
From Verif.Model Require Import Vec Costs Batch EmpiricalRisk.
From Verif.Spec Require Import CostSpec BatchSpec EmpiricalSpec.
From Verif.Proofs Require Import CostProofs VecProofs CostAnalysis CostBuiltin EmpiricalProofs EmpiricalAnalysis LogisticProofs EmpiricalRequests.
Import ListNotations.
Open Scope R_scope.

(** ** C28 *)
(** Linear regression.  Whatever request [ix] resolves to the (nonempty) index
    list [l] naming the samples [ps]: function and hessian are the means of the
    samples' losses and hessians, and so is the gradient when the dataset has
    more than one sample -- provided that [l] does not have exactly as many
    entries as the dataset without naming every sample once. *)
Theorem C28_linear_regression_mean : forall d perm D b ix s l s' ps x,
  sample_batch_indices perm (length D) b ix s = (BOk l, s') -> names D l ps -> l <> [] ->
  (length l <> length D \/ Permutation ps D) ->
  lr_function d perm D b x ix s = (OVal (rmean (map (sq_loss d x) ps)), s') /\
  lr_hessian perm D b ix s = (OVal (mmean (map sq_hess ps)), s') /\
  (length D <> 1%nat -> lr_gradient d perm D b x ix s = (OVal (GVec (vmean (map (sq_grad d x) ps))), s')).
Proof. intros. eapply lr_value; eauto. Qed.
(** ... with [reduction=None] one gradient per sample in the order of [l],
    unless [l] has the length of the dataset and permutes it. *)
Theorem C28_linear_regression_per_sample : forall d perm D b ix s l s' ps x,
  sample_batch_indices perm (length D) b ix s = (BOk l, s') -> names D l ps ->
  (length l <> length D \/ ps = D) ->
  lr_rows d perm D b x ix s = (OVal (map (sq_grad d x) ps), s').
Proof. intros. eapply lr_rows_value; eauto. Qed.
(** Logistic regression (two label values, listed as [l0], [l1], with
    [l1 <> 0]; see C58): the same with the logistic losses, [l1] being the
    positive class. *)
Theorem C28_logistic_regression_mean : forall d perm D b l0 l1 ix s l s' ps x,
  lg_labels D l0 l1 -> l1 <> 0 ->
  sample_batch_indices perm (length D) b ix s = (BOk l, s') -> names D l ps -> l <> [] ->
  (length l <> length D \/ Permutation ps D) ->
  let pos y := if Req_EM_T y l1 then true else false in
  lg_function d perm D b l0 l1 x ix s = (OVal (rmean (map (log_loss d pos x) ps)), s') /\
  lg_gradient d perm D b l0 l1 x ix s = (OVal (vmean (map (log_grad d pos x) ps)), s') /\
  lg_hessian d perm D b l0 l1 x ix s = (OVal (mmean (map (log_hess d x) ps)), s').
Proof. intros. eapply lg_value; eauto. Qed.
Theorem C28_logistic_regression_per_sample : forall d perm D b l0 l1 ix s l s' ps x,
  lg_labels D l0 l1 -> l1 <> 0 ->
  sample_batch_indices perm (length D) b ix s = (BOk l, s') -> names D l ps ->
  (length l <> length D \/ ps = D) ->
  lg_rows d perm D b l0 l1 x ix s = (OVal (map (log_grad d (fun y => if Req_EM_T y l1 then true else false) x) ps), s').
Proof. intros. eapply lg_rows_value; eauto. Qed.
(** The requests "all", "batch" and a single valid index always meet the
    proviso, after any history of calls on the cost object: "all" names the
    whole dataset in order, "batch" names [batch_size] samples. *)
Theorem C28_named_requests : forall perm (D : dataset) b, permutes perm -> (0 < b <= length D)%nat -> forall ixs,
  let s := snd (calls perm (length D) b ixs sp_new) in
  (exists l s', sample_batch_indices perm (length D) b IxAll s = (BOk l, s') /\ l <> [] /\ names D l D) /\
  (exists l ps s', sample_batch_indices perm (length D) b IxBatch s = (BOk l, s') /\ l <> [] /\ length ps = b /\ names D l ps /\ (length l <> length D \/ ps = D)) /\
  (forall i, (- Z.of_nat (length D) <= i < Z.of_nat (length D))%Z -> exists ps s',
     sample_batch_indices perm (length D) b (IxOne i) s = (BOk [i], s') /\ names D [i] ps /\ (length [i] <> length D \/ Permutation ps D)).
Proof.
  intros perm D b Hp Hb ixs s. split; [|split].
  - destruct (all_request perm D b Hb s) as (s' & E & N & H). eauto.
  - destruct (batch_request perm D b Hp Hb ixs) as (l & ps & s' & E & N & L & H & C). exists l, ps, s'. repeat split; auto. rewrite (names_length D l ps H). exact L.
  - intros i Hi. now apply one_request.
Qed.
(** Every constructed cost has an admissible batch size; construction succeeds
    exactly for "all" and integers between 1 and the number of samples. *)
Theorem C28_batch_size_checked : forall D bs,
  (forall b, init_batch_size D bs = Some b -> (0 < b <= length D)%nat) /\
  ((exists b, init_batch_size D bs = Some b) <-> D <> [] /\ (bs = BsAll \/ exists z, bs = BsInt z /\ (1 <= z <= Z.of_nat (length D))%Z)).
Proof.
  intros D bs. destruct D as [|p D].
  - cbn. split; [discriminate|]. split; [intros [b Hb]; discriminate|intros [H _]; congruence].
  - remember (p :: D) as D' eqn:ED. assert (HL : (0 < length D')%nat) by (subst; cbn; lia).
    assert (R : init_batch_size D' bs = match bs with BsAll => Some (length D') | BsInt z => if (z <=? 0)%Z || (Z.of_nat (length D') <? z)%Z then None else Some (Z.to_nat z) | BsOtherString => None end) by (subst; reflexivity).
    rewrite R. assert (NE : D' <> []) by (subst; discriminate). clear R ED. split.
    + intros b. destruct bs as [|z|]; [intros [= <-]; lia| |discriminate].
      destruct (Z.leb_spec z 0), (Z.ltb_spec (Z.of_nat (length D')) z); cbn; try discriminate. intros [= <-]. lia.
    + split.
      * intros [b Hb]. split; [exact NE|]. destruct bs as [|z|]; [now left| |discriminate]. right. exists z. split; [reflexivity|].
        destruct (Z.leb_spec z 0), (Z.ltb_spec (Z.of_nat (length D')) z); cbn in Hb; try discriminate. lia.
      * intros [_ [->|(z & -> & Hz)]]; [eauto|].
        destruct (Z.leb_spec z 0), (Z.ltb_spec (Z.of_nat (length D')) z); cbn; try lia. eauto.
Qed.
(** An index list of another length than the dataset with an index out of range
    raises. *)
Theorem C28_bad_index_raises : forall d perm (D : dataset) b x s l, length l <> length D ->
  (exists i, In i l /\ ~ (- Z.of_nat (length D) <= i < Z.of_nat (length D))%Z) ->
  fst (lr_function d perm D b x (IxMany l) s) = ORaise /\ fst (lr_gradient d perm D b x (IxMany l) s) = ORaise /\
  fst (lr_hessian perm D b (IxMany l) s) = ORaise /\ fst (lr_rows d perm D b x (IxMany l) s) = ORaise.
Proof.
  intros d perm D b x s l Hl Hi. apply py_rows_none in Hi.
  assert (E : lr_batch_data perm D b (IxMany l) s = (None, with_last l s)).
  { unfold lr_batch_data. cbn [sample_batch_indices]. destruct (Nat.eqb_spec (length l) (length D)); [contradiction|]. now rewrite Hi. }
  unfold lr_function, lr_gradient, lr_hessian, lr_rows. rewrite E. auto.
Qed.
(** The proviso is needed: a list as long as the dataset is taken for the whole
    dataset, so repeated samples are replaced by others, and even indices out of
    range are accepted. *)
Definition ex_data : dataset := [(fun _ => 1, 2); (fun _ => 3, 5)].
Theorem C28_full_length_list_refuted :
  (exists ps, names ex_data [0%Z; 0%Z] ps /\
     fst (lr_function 1 (fun _ l => l) ex_data 2 vzero (IxMany [0%Z; 0%Z]) sp_new) <> OVal (rmean (map (sq_loss 1 vzero) ps))) /\
  (exists v, fst (lr_function 1 (fun _ l => l) ex_data 2 vzero (IxMany [7%Z; 7%Z]) sp_new) = OVal v) /\
  (exists ps, names ex_data [1%Z; 0%Z] ps /\
     fst (lr_rows 1 (fun _ l => l) ex_data 2 vzero (IxMany [1%Z; 0%Z]) sp_new) <> OVal (map (sq_grad 1 vzero) ps)).
Proof.
  split; [|split].
  - eexists. split; [unfold names; repeat econstructor; cbn; lia|]. cbn -[INR]. unfold ldot, lsub, mulrows, rsum, rmean, sq_loss, dot, vzero, rsum. cbn. intros [= E]. lra.
  - eexists. reflexivity.
  - eexists. split; [unfold names; repeat econstructor; cbn; lia|]. cbn -[INR]. unfold lsub, mulrows, sq_grad, dot, vzero. cbn. intros [= E _].
    apply (f_equal (fun v => v 0%nat)) in E. unfold vscal in E. cbn in E. lra.
Qed.
(** So is the exception for the gradient: with a single sample, gradient
    returns a [d x d] array that is not of the domain's shape, and the proximal
    raises. *)
Theorem C28_single_sample_refuted : forall d perm p b x s solve rho,
  (exists M s', lr_gradient d perm [p] b x IxAll s = (OVal (GMat M), s')) /\
  lr_proximal [p] solve x rho = Err ValueError.
Proof. intros. split; [|reflexivity]. do 2 eexists. reflexivity. Qed.

(** Scaled and regularized empirical costs: if for a request the leaf's
    per-sample gradients are nonempty and average to its gradient, the same
    holds for every cost built from it. *)
Theorem C28_wrapped_per_sample_gradients : forall K St n (rows : leaf K St -> ev K St (list vec)) (e : emp K St) k x s,
  (forall l, In (AUser l) (emp_atoms e) -> exists vs s', vs <> [] /\ rows l k x s = Some (vs, s') /\ exists g, l_g l k x s = Some (g, s') /\ forall i, (i < n)%nat -> vmean vs i = g i) ->
  exists vs s', vs <> [] /\ emp_rows rows e k x s = Some (vs, s') /\ exists g, emp_g e k x s = Some (g, s') /\ forall i, (i < n)%nat -> vmean vs i = g i.
Proof.
  intros K St n rows e k x s. induction e as [l|e IH a|e IH r]; intros H; cbn [emp_rows emp_g emp_atoms] in *.
  - apply H. now left.
  - destruct (IH H) as (vs & s' & Hne & E & g & Eg & M). exists (map (vscal a) vs), s'. split; [destruct vs; [congruence|discriminate]|].
    unfold emap. rewrite E, Eg. split; [reflexivity|]. eexists. split; [reflexivity|]. intros i Hi. unfold vscal at 2. rewrite <- (M i Hi).
    unfold vmean. rewrite map_map. unfold vscal. rewrite !rmean_map, rsum_map_scal. apply Rmult_assoc.
  - destruct IH as (vs & s' & Hne & E & g & Eg & M); [intros; apply H; apply in_or_app; auto|].
    exists (map (fun v => vadd v (reg_g r x)) vs), s'. split; [destruct vs; [congruence|discriminate]|].
    unfold ebind2. rewrite E, Eg. split; [destruct vs; [congruence|reflexivity]|]. eexists. split; [reflexivity|]. intros i Hi. unfold vadd at 2. rewrite <- (M i Hi).
    unfold vmean. rewrite map_map. unfold vadd. rewrite !rmean_map, rsum_map_add.
    assert (N : INR (length vs) <> 0) by (apply not_0_INR; destruct vs; [congruence|discriminate]).
    assert (C : forall l : list vec, rsum (map (fun _ => reg_g r x i) l) = INR (length l) * reg_g r x i).
    { induction l as [|v l IHl]; cbn [map length]; [rewrite rsum_nil; cbn; ring|]. rewrite rsum_cons, IHl, S_INR. ring. }
    rewrite C. transitivity (rsum (map (fun v : vec => v i) vs) / INR (length vs) + reg_g r x i); [field; exact N|reflexivity].
Qed.
(** The mean of the per-sample gradients is the gradient for every request, even
    the ones above on which both are wrong. *)
Theorem C28_per_sample_gradients_average : forall d perm (D : dataset) b ix s x rows s', (length D <> 1)%nat ->
  lr_rows d perm D b x ix s = (OVal rows, s') -> rows <> [] -> lr_gradient d perm D b x ix s = (OVal (GVec (vmean rows)), s').
Proof.
  intros d perm D b ix s x rows s' H1. unfold lr_rows, lr_gradient.
  destruct (lr_batch_data perm D b ix s) as [[[[rs bs] k]|] s1] eqn:E; [|discriminate]. intros [= <- <-] Hne.
  assert (Q : exists qs, rs = map fst qs /\ bs = T1 (map snd qs) /\ k = length qs).
  { unfold lr_batch_data in E. destruct (sample_batch_indices perm (length D) b ix s) as [[l|] s2] eqn:Es; [|discriminate].
    destruct (Nat.eqb_spec (length l) (length D)) as [El|El].
    - injection E as <- <- <- _. exists D. repeat split; auto. destruct D as [|p [|q D']]; [reflexivity|exfalso; now apply H1|reflexivity].
    - destruct (py_rows D l) as [ps|] eqn:Ep; [|discriminate]. injection E as <- <- <- _. exists ps. repeat split; auto.
      apply py_rows_names in Ep. symmetry. now apply names_length with D. }
  destruct Q as (qs & -> & -> & ->). rewrite residuals_t1, ls_rows in *. rewrite ls_grad.
  destruct qs; [now contradiction Hne|reflexivity].
Qed.
Example C28_example : let s := snd (calls (fun _ l => l) 2 1 [] sp_new) in
  lr_function 1 (fun _ l => l) ex_data 1 (fun _ => 2) IxAll s = (OVal (1/4), with_last [0%Z; 1%Z] s) /\
  lr_gradient 1 (fun _ l => l) ex_data 1 (fun _ => 2) (IxMany [1; -1; 0]%Z) s = (OVal (GVec (fun _ => 2)), with_last [1; -1; 0]%Z s).
Proof.
  split.
  - cbn -[INR]. f_equal. f_equal. unfold ldot, lsub, mulrows, dot, rsum. cbn. field.
  - assert (E : py_rows ex_data [1; -1; 0]%Z = Some [(fun _ => 3, 5); (fun _ => 3, 5); (fun _ => 1, 2)]) by reflexivity.
    unfold lr_gradient, lr_batch_data. cbn [sample_batch_indices length ex_data Nat.eqb]. fold ex_data. rewrite E. cbn [Nat.eqb map fst snd]. do 3 f_equal. apply functional_extensionality. intros i. unfold vscal, vsub, tmulv, mulv, gram, rsum. cbn. field.
Qed.

(** ** C56, C57, C27 for the empirical risks *)
(** gradient and hessian of the risk over any samples are its derivatives *)
Theorem C57_empirical_derivatives : forall d pos ps x,
  (grad_at d (fun x => rmean (map (sq_loss d x) ps)) x (vmean (map (sq_grad d x) ps)) /\
   jac_at d (fun x => vmean (map (sq_grad d x) ps)) x (mmean (map sq_hess ps))) /\
  (grad_at d (fun x => rmean (map (log_loss d pos x) ps)) x (vmean (map (log_grad d pos x) ps)) /\
   jac_at d (fun x => vmean (map (log_grad d pos x) ps)) x (mmean (map (log_hess d x) ps))).
Proof. intros. split; [apply ls_deriv|apply lg_deriv]. Qed.
(** the reported constants are valid for the full-data risk (linear regression:
    given correct eigenvalue routines; the smallest eigenvalue of a Gram matrix
    is nonnegative) *)
Theorem C56_linear_regression_constants : forall d eig_max eig_min (D : dataset), D <> [] ->
  (eig_max_right d eig_max (gram (map fst D)) -> forall L, lr_smooth D eig_max = Fin L ->
     lipschitz d (fun x => vmean (map (sq_grad d x) D)) L) /\
  (eig_min_right d eig_min (gram (map fst D)) -> 0 <= eig_min (gram (map fst D)) ->
     (exists m, lr_cvx D eig_min = Fin m) /\
     forall m, lr_cvx D eig_min = Fin m ->
     convex_with d (fun x => rmean (map (sq_loss d x) D)) (fun x => vmean (map (sq_grad d x) D)) m).
Proof.
  intros d eig_max eig_min D HD. split.
  - intros H L [= <-]. now apply ls_lip.
  - intros H H0. split; [|intros; now apply ls_cvx with eig_min].
    unfold lr_cvx. set (l := _ / _). assert (0 <= l) by (apply Rmult_le_pos; [exact H0|]; left; apply Rinv_0_lt_compat, lt_0_INR; destruct D; [congruence|cbn; lia]).
    destruct (Rlt_dec tol l); [eauto|]. destruct (Rle_dec (Rabs l) tol); [eauto|]. exfalso. rewrite Rabs_pos_eq in * by assumption. lra.
Qed.
Theorem C56_logistic_regression_constants : forall d pos D,
  (forall L, lg_smooth d D = Fin L -> lipschitz d (fun x => vmean (map (log_grad d pos x) D)) L) /\
  (forall m, lg_cvx = Fin m -> convex_with d (fun x => rmean (map (log_loss d pos x) D)) (fun x => vmean (map (log_grad d pos x) D)) m).
Proof. intros. apply lg_constants. Qed.
(** the proximal of linear regression is the unique minimiser of the proximal
    problem, and it exists for every dataset of at least two samples *)
Theorem C27_linear_regression_proximal : forall d solve (D : dataset) x rho, solve_ok d solve -> 0 < rho ->
  (forall p, lr_proximal D solve x rho = Ok p -> is_prox d (fun x => rmean (map (sq_loss d x) D)) rho x p) /\
  (length D <> 1%nat -> exists p, lr_proximal D solve x rho = Ok p).
Proof.
  intros d solve D x rho HS Hr. split; [intros; now apply ls_prox with solve|].
  intros H. unfold lr_proximal. destruct D as [|p [|q D']]; [eexists; reflexivity|exfalso; now apply H|eexists; reflexivity].
Qed.
(** A linear-regression object as an operand of cost arithmetic: called with
    [indices="all"] it is a basic cost with these functions, so that the
    theorems on composed costs (C26, C27, C56, C57) apply to it. *)
Theorem C57_linear_regression_as_operand : forall d perm (D : dataset) b solve eig_max eig_min mt kw, (2 <= length D)%nat ->
  atom_is d kw IxAll (AUser (lr_leaf d perm D b solve eig_max eig_min mt))
    (fun x => rmean (map (sq_loss d x) D)) (fun x => vmean (map (sq_grad d x) D)) (fun _ => mmean (map sq_hess D)).
Proof.
  intros d perm D b solve eig_max eig_min mt kw H2.
  assert (R : forall s, exists l s', sample_batch_indices perm (length D) b IxAll s = (BOk l, s') /\ l <> [] /\ names D l D).
  { intros s. eexists. eexists. split; [reflexivity|]. split; [|apply names_seq]. destruct D; [cbn in H2; lia|discriminate]. }
  repeat split; intros x s; cbn [l_f l_g l_h lr_leaf]; unfold ev_of; destruct (R s) as (l & s' & E & N & H);
    destruct (lr_value d perm D b IxAll s s' l D E H N (or_intror (Permutation_refl D)) x) as (A & B & C); exists s';
    [rewrite A|rewrite C by lia|rewrite B]; reflexivity.
Qed.

(** ** C58: the two class labels become 0 and 1 *)
(** For any two label values enumerated as [l0], [l1] (the order is that of a
    Python set), training encodes samples labelled [l0] as 0 and [l1] as 1 and
    prediction maps back -- if [l1] is not 0. *)
Theorem C58_label_encoding : forall D l0 l1 p, lg_labels D l0 l1 -> l1 <> 0 -> In p D ->
  (snd p = l0 -> relabel l0 l1 (snd p) = 0) /\ (snd p = l1 -> relabel l0 l1 (snd p) = 1).
Proof.
  intros D l0 l1 p HL H1 Hp. pose proof (relabel_ok D l0 l1 HL H1 p Hp) as E. unfold cls, ispos in E. destruct HL as (Hne & _).
  split; intros Hs; rewrite E; destruct (Req_EM_T (snd p) l1); congruence.
Qed.
(** predictions are the label with the smaller loss at the point *)
Theorem C58_prediction_minimises_loss : forall d l0 l1 x a, l0 <> l1 ->
  let pos y := if Req_EM_T y l1 then true else false in
  forall y, y = l0 \/ y = l1 -> log_loss d pos x (a, lg_predict d l0 l1 x a) <= log_loss d pos x (a, y).
Proof.
  intros d l0 l1 x a Hne pos y Hy. unfold lg_predict. change (expit (dot d a x)) with (sigma (dot d a x)). set (z := dot d a x).
  pose proof (sigma_pos z). pose proof (sigma_lt1 z).
  assert (P1 : pos l1 = true) by (unfold pos; destruct (Req_EM_T l1 l1); congruence).
  assert (P0 : pos l0 = false) by (unfold pos; destruct (Req_EM_T l0 l1); congruence).
  unfold log_loss. cbn [fst snd]. fold z. destruct (Rle_dec (1/2) (sigma z)) as [G|G].
  - rewrite P1. destruct Hy as [->| ->]; [rewrite P0|rewrite P1; lra]. apply Ropp_le_contravar.
    destruct (Req_dec (sigma z) (1/2)) as [->|]; [right; f_equal; lra|]. left. apply ln_increasing; lra.
  - rewrite P0. destruct Hy as [->| ->]; [rewrite P0; lra|rewrite P1]. apply Ropp_le_contravar. left. apply ln_increasing; lra.
Qed.
(** If the set lists 0 second (CPython does for the labels 8 and 0 when an 8
    comes first in the data), every sample is encoded as class 1. *)
Theorem C58_label_encoding_refuted : exists D l0 l1, lg_labels D l0 l1 /\ forall p, In p D -> relabel l0 l1 (snd p) = 1.
Proof.
  exists [(vzero, 8); (vzero, 0)], 8, 0. split.
  - repeat split; try lra; [exists (vzero, 8)|exists (vzero, 0)|]; cbn; auto. intros p [<-|[<-|[]]]; cbn; auto.
  - intros p [<-|[<-|[]]]; cbn; unfold relabel.
    + destruct (Req_EM_T 8 8); [|lra]. destruct (Req_EM_T 0 0); lra.
    + destruct (Req_EM_T 0 8); [lra|]. destruct (Req_EM_T 0 0); lra.
Qed.
Example C58_example : lg_labels [(vzero, 1); (vzero, -1)] 1 (-1) /\ -1 <> 0.
Proof. repeat split; try lra; [exists (vzero, 1)|exists (vzero, -1)|]; cbn; auto. intros p [<-|[<-|[]]]; cbn; auto. Qed.

Print Assumptions C28_linear_regression_mean.
Print Assumptions C28_logistic_regression_mean.
Print Assumptions C28_named_requests.
Print Assumptions C28_wrapped_per_sample_gradients.
Print Assumptions C57_empirical_derivatives.
Print Assumptions C56_linear_regression_constants.
Print Assumptions C56_logistic_regression_constants.
Print Assumptions C27_linear_regression_proximal.
Print Assumptions C58_label_encoding.
