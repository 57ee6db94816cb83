(** Lemmas for Props/DisplayProps.v. *)
From Coq Require Import List Bool Arith ZArith Reals String Lia Lra.
From Verif.Model Require Import PyDict History Messages Network Counting Vec Metrics Display.
From Verif.Spec Require Import PredictSpec DisplaySpec.
From Verif.Proofs Require Import EmpiricalProofs.
Import ListNotations.
Local Open Scope R_scope.

Lemma smem_In s l : smem s l = true <-> In s l.
Proof.
  unfold smem. rewrite existsb_exists. split.
  - intros (x & I & E). apply String.eqb_eq in E. now subst.
  - intro I. exists s. split; auto. apply String.eqb_refl.
Qed.
Lemma filter_names_In av o s : In s (filter_names av o) <-> In s av /\ requested o s.
Proof.
  destruct o as [l|]; cbn [filter_names requested]; [|tauto].
  rewrite filter_In, smem_In. tauto.
Qed.
Lemma filter_names_mem av o s : smem s (filter_names av o) = true <-> In s av /\ requested o s.
Proof. rewrite smem_In. apply filter_names_In. Qed.
Lemma is_nil_iff {A} (l : list A) : is_nil l = true <-> l = [].
Proof. destruct l; cbn; split; congruence. Qed.
Lemma is_nil_false {A} (l : list A) : is_nil l = false <-> exists x, In x l.
Proof.
  destruct l as [|x l]; cbn; split; try congruence; [intros (x & [])|]; intros _; exists x; auto.
Qed.
Lemma kept_filter {A} (f : A -> bool) (P : A -> Prop) l : (forall a, In a l -> f a = true <-> P a) -> kept P l (filter f l).
Proof.
  induction l as [|a l IH]; intro H; cbn [filter]; [constructor|].
  assert (Ha := H a (or_introl eq_refl)). destruct (f a) eqn:E; constructor; try tauto; try (apply IH; intros; apply H; right; auto).
  intro Pa. apply Ha in Pa. congruence.
Qed.
Lemma kept_In {A} (P : A -> Prop) l l' : kept P l l' -> forall a, In a l' <-> In a l /\ P a.
Proof.
  intro K. induction K; intro b; cbn [In]; [tauto| |]; rewrite IHK; split; intuition (subst; auto); tauto.
Qed.
Lemma kept_all {A} (P : A -> Prop) l l' : kept P l l' -> (forall a, In a l -> P a) -> l' = l.
Proof.
  intro K. induction K as [|a l l' Pa K IH|a l l' Na K IH]; intro H; auto.
  - f_equal. apply IH. intros; apply H; right; auto.
  - destruct Na. apply H. left. auto.
Qed.
Lemma kept_map {A B} (f : A -> B) (P : B -> Prop) l l' : kept (fun a => P (f a)) l l' -> kept P (map f l) (map f l').
Proof. intro K. induction K; cbn [map]; constructor; auto. Qed.
Lemma filter_filter {A} (f g : A -> bool) l : filter f (filter g l) = filter (fun a => g a && f a) l.
Proof. induction l as [|a l IH]; cbn [filter]; auto. destruct (g a); cbn [filter andb]; [destruct (f a)|]; now rewrite ?IH. Qed.
Lemma filter_map {A B} (f : B -> bool) (g : A -> B) l : filter f (map g l) = map g (filter (fun a => f (g a)) l).
Proof. induction l as [|a l IH]; cbn; auto. destruct (f (g a)); cbn; now rewrite IH. Qed.
Lemma filter_ext_In' {A} (f g : A -> bool) l : (forall a, In a l -> f a = g a) -> filter f l = filter g l.
Proof. induction l as [|a l IH]; intro H; cbn; auto. rewrite (H a (or_introl eq_refl)), IH; auto. intros; apply H; right; auto. Qed.

(** ** values *)
Lemma is_inf_iff v : is_inf v = true <-> infinite v.
Proof. unfold infinite. destruct v; cbn; split; intuition congruence. Qed.
Lemma le0_iff v : le0 v = true <-> nonpositive v.
Proof.
  unfold nonpositive. destruct v as [r| | |]; cbn.
  - destruct (Rle_dec r 0); split; intros; try congruence; [right; eauto|]. destruct H as [H|(s & E & H)]; [congruence|]. injection E as <-. lra.
  - split; [congruence|]. intros [H|(s & E & _)]; congruence.
  - split; auto.
  - split; [congruence|]. intros [H|(s & E & _)]; congruence.
Qed.
Lemma has_inf_iff w : has_inf (to_frow w) = true <-> diverged w.
Proof. unfold has_inf, diverged, ys. cbn. rewrite !orb_true_iff, !is_inf_iff. intuition congruence. Qed.

(** ** truncation *)
Lemma fold_min_le l : forall a, (fold_left Z.min l a <= a)%Z /\ Forall (fun z => fold_left Z.min l a <= z)%Z l.
Proof.
  induction l as [|b l IH]; intro a; cbn [fold_left]; [split; [lia|constructor]|].
  destruct (IH (Z.min a b)) as (H1 & H2). split; [lia|]. constructor; [lia|auto].
Qed.
Lemma fold_min_In l : forall a, fold_left Z.min l a = a \/ In (fold_left Z.min l a) l.
Proof.
  induction l as [|b l IH]; intro a; cbn [fold_left]; auto.
  destruct (IH (Z.min a b)) as [E|I]; [|right; right; auto]. rewrite E. destruct (Z.min_spec a b) as [(_ & ->)|(_ & ->)]; auto. right. left. auto.
Qed.
Lemma keeps_iff f a i : (match cutoff f a with None => true | Some c => Z.ltb i c end) = true <->
  forall w, In w f -> f_alg w = a -> has_inf w = true -> (i < f_iter w)%Z.
Proof.
  unfold cutoff. destruct (filter (fun w => has_inf w && String.eqb (f_alg w) a) f) as [|w l] eqn:E.
  - split; auto. intros _ v I A H. assert (X : In v []) by (rewrite <- E; apply filter_In; split; auto; rewrite H, A, String.eqb_refl; auto). destruct X.
  - rewrite Z.ltb_lt. assert (M : forall v, In v (w :: l) <-> In v f /\ has_inf v = true /\ f_alg v = a).
    { intro v. rewrite <- E, filter_In, andb_true_iff, String.eqb_eq. tauto. }
    destruct (fold_min_le (map f_iter l) (f_iter w)) as (L1 & L2). rewrite Forall_forall in L2. split.
    + intros Lt v I A H. assert (J : In v (w :: l)) by (apply M; auto). destruct J as [<-|J]; [lia|]. assert (X := L2 _ (in_map f_iter _ _ J)). cbn in X. lia.
    + intro H. destruct (fold_min_In (map f_iter l) (f_iter w)) as [->|I].
      * destruct (proj1 (M w) (or_introl eq_refl)) as (Iw & Hw & Aw). auto.
      * apply in_map_iff in I. destruct I as (v & <- & I). destruct (proj1 (M v) (or_intror I)) as (Iw & Hw & Aw). auto.
Qed.
Lemma truncate_eq f : truncate f = filter (fun w => match cutoff f (f_alg w) with None => true | Some c => Z.ltb (f_iter w) c end) f.
Proof.
  unfold truncate. destruct (existsb has_inf f) eqn:E; auto.
  rewrite (filter_ext_In' _ (fun _ => true)); [clear; induction f; cbn; congruence|]. intros w I.
  apply keeps_iff. intros v Iv _ H. assert (X : existsb has_inf f = true) by (apply existsb_exists; eauto). congruence.
Qed.

(** ** the y axis *)
Definition maskw (c : R) (w : frow) : frow := mkF (f_alg w) (f_iter w) (mask c (f_mean w)) (mask c (f_min w)) (mask c (f_max w)).
Lemma mask_drawn v : drawn_as true v (mask min_y v).
Proof.
  unfold drawn_as, mask. destruct (le0 v) eqn:E; [left; split; [now apply le0_iff|reflexivity]|right; split; auto].
  rewrite <- le0_iff. congruence.
Qed.
Lemma least_positive_pos l : forall acc, (forall m, acc = Some m -> 0 < m) -> forall m,
  fold_left (fun acc v => match v with
    | Fin r => if gt0 v then match acc with None => Some r | Some m => Some (Rmin m r) end else acc
    | _ => acc end) l acc = Some m -> 0 < m.
Proof.
  induction l as [|v l IH]; intros acc H m E; cbn [fold_left] in E; [auto|]. refine (IH _ _ m E).
  destruct v as [r| | |]; auto. cbn. destruct (Rlt_dec 0 r) as [P|_]; auto. intros m' E'. destruct acc as [k|]; injection E' as <-; auto.
  apply Rmin_glb_lt; auto.
Qed.
Lemma replacement_eq f : replacement f = min_y.
Proof.
  unfold replacement. destruct (least_positive f) as [m|] eqn:E; auto.
  assert (P : 0 < m) by (apply (least_positive_pos (flat_map ys f) None); [discriminate|exact E]).
  destruct (Req_EM_T m 0); [lra|auto].
Qed.
Lemma lift_eq f : lift_nonpositive f = map (maskw min_y) f.
Proof.
  unfold lift_nonpositive. destruct (existsb (fun w => existsb le0 (ys w)) f) eqn:E; [now rewrite replacement_eq|].
  rewrite <- (map_id f) at 1. apply map_ext_in. intros w I.
  assert (N : forall v, In v (ys w) -> le0 v = false).
  { intros v Iv. destruct (le0 v) eqn:L; auto. assert (X : existsb (fun w => existsb le0 (ys w)) f = true); [|congruence].
    apply existsb_exists. exists w. split; auto. apply existsb_exists. eauto. }
  unfold maskw, mask. rewrite !N by (cbn; auto). now destruct w.
Qed.
Definition shiftw (k : Z) (w : frow) : frow := mkF (f_alg w) (f_iter w + k) (f_mean w) (f_min w) (f_max w).
Lemma shiftw_0 f : map (shiftw 0) f = f.
Proof. rewrite <- (map_id f) at 2. apply map_ext. intros []. unfold shiftw. cbn. now rewrite Z.add_0_r. Qed.

(** ** a prepared frame *)
Definition rows_of (m : pmetric) (rows : list prow) : list frow := map to_frow (filter (fun w => String.eqb (p_metric w) (pm_name m)) rows).
Lemma In_rows_of m rows v : In v (rows_of m rows) <-> exists w, v = to_frow w /\ In w rows /\ p_metric w = pm_name m.
Proof.
  unfold rows_of. rewrite in_map_iff. split.
  - intros (w & <- & I). apply filter_In in I. rewrite String.eqb_eq in I. exists w. tauto.
  - intros (w & -> & I & E). exists w. rewrite filter_In, String.eqb_eq. tauto.
Qed.
Lemma shown_iff m rows w a : In w rows -> p_metric w = pm_name m -> p_alg w = a ->
  ((match cutoff (rows_of m rows) (f_alg (to_frow w)) with None => true | Some c => Z.ltb (f_iter (to_frow w)) c end) = true <-> shown rows (pm_name m) a w).
Proof.
  intros I E A. rewrite keeps_iff. unfold shown. cbn [to_frow f_iter f_alg]. split.
  - intro H. repeat split; auto. intros w' I' E' A' D. apply (H (to_frow w')); [apply In_rows_of; eauto|cbn; congruence|now apply has_inf_iff].
  - intros (_ & _ & H) v Iv Av Hv. apply In_rows_of in Iv. destruct Iv as (w' & -> & I' & E'). cbn in Av |- *. apply H; auto; [congruence|now apply has_inf_iff].
Qed.
Lemma In_truncated m rows v : In v (truncate (rows_of m rows)) <-> exists w, v = to_frow w /\ In w rows /\ shown rows (pm_name m) (p_alg w) w.
Proof.
  rewrite truncate_eq, filter_In, In_rows_of. split.
  - intros ((w & -> & I & E) & K). exists w. repeat split; auto; apply (proj1 (shown_iff m rows w _ I E eq_refl) K).
  - intros (w & -> & I & S). assert (E : p_metric w = pm_name m) by apply S. split; [eauto|]. now apply (shown_iff m rows w _ I E eq_refl).
Qed.
(** the rows of one algorithm *)
Lemma truncated_of m rows a : exists k, kept (shown rows (pm_name m) a) rows k /\
  filter (fun w => String.eqb (f_alg w) a) (truncate (rows_of m rows)) = map to_frow k.
Proof.
  exists (filter (fun w => String.eqb (p_metric w) (pm_name m) &&
      ((match cutoff (rows_of m rows) (f_alg (to_frow w)) with None => true | Some c => Z.ltb (f_iter (to_frow w)) c end) && String.eqb (p_alg w) a)) rows). split.
  - apply kept_filter. intros w I. rewrite !andb_true_iff, !String.eqb_eq. split.
    + intros (E & K & A). now apply (shown_iff m rows w a I E A).
    + intro S. assert (S' := S). destruct S' as (E & A & _). repeat split; auto. now apply (shown_iff m rows w a I E A).
  - rewrite truncate_eq, filter_filter. unfold rows_of at 2. rewrite filter_map, filter_filter. reflexivity.
Qed.

Definition liftw (ylog : bool) (w : frow) : frow := if ylog then maskw min_y w else w.
Lemma prepare_eq m rows : exists sh, shifted rows m sh /\ prepare m rows = map (fun w => shiftw sh (liftw (pm_ylog m) w)) (truncate (rows_of m rows)).
Proof.
  unfold prepare. fold (rows_of m rows).
  assert (L : (if pm_ylog m then lift_nonpositive (truncate (rows_of m rows)) else truncate (rows_of m rows)) = map (liftw (pm_ylog m)) (truncate (rows_of m rows))).
  { unfold liftw. destruct (pm_ylog m); [apply lift_eq|now rewrite map_id]. }
  rewrite L. set (f := map (liftw _) _).
  enough (G : exists sh, shifted rows m sh /\ (if pm_xlog m then shift_iterations f else f) = map (shiftw sh) f).
  { destruct G as (sh & S & G). exists sh. split; auto. rewrite G. unfold f. apply map_map. }
  assert (Z0 : existsb (fun w => Z.eqb (f_iter w) 0) f = true <-> exists a w, In w rows /\ shown rows (pm_name m) a w /\ p_iter w = 0%Z).
  { rewrite existsb_exists. unfold f. split.
    - intros (v & I & E). apply in_map_iff in I. destruct I as (u & <- & I). apply In_truncated in I. destruct I as (w & -> & I & S).
      exists (p_alg w), w. repeat split; auto; try apply S. apply Z.eqb_eq in E. unfold liftw in E. destruct (pm_ylog m); exact E.
    - intros (a & w & I & S & E). exists (liftw (pm_ylog m) (to_frow w)). split; [apply in_map, In_truncated; exists w; assert (A : p_alg w = a) by apply S; rewrite A; auto|].
      apply Z.eqb_eq. unfold liftw. destruct (pm_ylog m); exact E. }
  destruct (pm_xlog m) eqn:X.
  - unfold shift_iterations. destruct (existsb (fun w => Z.eqb (f_iter w) 0) f) eqn:E.
    + exists 1%Z. split; [|reflexivity]. left. tauto.
    + exists 0%Z. split; [|symmetry; apply shiftw_0]. right. split; auto. intros (_ & H). apply Z0 in H. discriminate.
  - exists 0%Z. split; [|symmetry; apply shiftw_0]. right. split; auto. intros (H & _). congruence.
Qed.

Lemma uniq_In l : forall seen s, In s (uniq seen l) <-> In s l /\ ~ In s seen.
Proof.
  induction l as [|a l IH]; intros seen s; cbn [uniq In]; [tauto|].
  destruct (smem a seen) eqn:E.
  - apply smem_In in E. rewrite IH. split; [tauto|]. intros ([->|H] & N); tauto.
  - assert (NE : ~ In a seen) by (rewrite <- smem_In; congruence). cbn [In]. rewrite IH. cbn [In]. split.
    + intros [->|(H & N)]; tauto.
    + intros ([->|H] & N); auto. destruct (string_dec a s) as [->|D]; auto. right. tauto.
Qed.
Lemma uniq_NoDup l : forall seen, NoDup (uniq seen l).
Proof.
  induction l as [|a l IH]; intro seen; cbn [uniq]; [constructor|]. destruct (smem a seen); auto. constructor; auto.
  rewrite uniq_In. cbn. tauto.
Qed.
