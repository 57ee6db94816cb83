(** Lemmas about scores and the prediction loop. *)
From Coq Require Import List Bool Arith ZArith Reals String Lia Lra Permutation.
From Verif.Model Require Import Vec Costs EmpiricalRisk PyDict History Messages Network Counting Metrics Predict.
From Verif.Spec Require Import HistorySpec MetricsSpec PredictSpec.
From Verif.Proofs Require Import EmpiricalProofs MetricsProofs.
Import ListNotations.
Local Open Scope R_scope.

Lemma req_spec x y : reflect (x = y) (req x y).
Proof. unfold req. destruct (Req_EM_T x y); constructor; auto. Qed.
Lemma is_int_spec r : is_int r = true <-> whole r.
Proof.
  unfold is_int, whole. destruct (Req_EM_T r (IZR (Int_part r))) as [E|N]; split; intro H; try discriminate; auto; [eauto|].
  exfalso. apply N. destruct H as (z & ->). f_equal. symmetry.
  destruct (base_Int_part (IZR z)) as (A & B). assert (A' := le_IZR _ _ A).
  assert (IZR z < IZR (Int_part (IZR z) + 1)) by (rewrite plus_IZR; lra). apply lt_IZR in H. lia.
Qed.
Lemma ints_spec l : forallb is_int l = true <-> Forall whole l.
Proof. rewrite forallb_forall, Forall_forall. split; intros H x I; apply is_int_spec; auto. Qed.

Lemma count_cons p q l : count p (q :: l) = ((if p q then 1 else 0) + count p l)%nat.
Proof. unfold count. cbn [filter]. destruct (p q); reflexivity. Qed.
Lemma count_le p l : (count p l <= List.length l)%nat.
Proof. induction l as [|q l IH]; [unfold count; cbn; lia|]. rewrite count_cons. cbn [List.length]. destruct (p q); lia. Qed.

Lemma matches_count y p : List.length y = List.length p -> matches y p (count (fun q => req (fst q) (snd q)) (combine y p)).
Proof.
  revert p. induction y as [|c y IH]; intros [|c' p] L; try discriminate; [constructor|]. cbn [combine]. rewrite count_cons. cbn [fst snd].
  destruct (req_spec c c') as [<-|N]; [apply m_hit|apply m_miss]; auto; apply IH; now injection L.
Qed.
Lemma matches_len y p k : matches y p k -> List.length y = List.length p.
Proof. induction 1; cbn; congruence. Qed.
Lemma matches_fun y p k k' : matches y p k -> matches y p k' -> k = k'.
Proof. intro H. revert k'. induction H; intros k' H'; inversion H'; subst; auto; try congruence. Qed.
Lemma matches_le y p k : matches y p k -> (k <= List.length y)%nat.
Proof. induction 1; cbn; lia. Qed.
Lemma matches_all y p k : matches y p k -> k = List.length y <-> p = y.
Proof.
  intro H. split.
  - intro E. induction H as [|y p k c H IH|y p k c c' N H IH]; auto; cbn [List.length] in E.
    + f_equal; auto.
    + apply matches_le in H. lia.
  - intros ->. induction y as [|c y IH] in k, H |- *; inversion H; subst; auto; [|congruence]. cbn. f_equal; auto.
Qed.

Lemma combine_len {A B} (x : list A) (y : list B) : List.length x = List.length y -> List.length (combine x y) = List.length x.
Proof. intro L. rewrite combine_length. lia. Qed.

Lemma accuracy_ok y p r : accuracy_score y p = Ok r <->
  List.length y = List.length p /\ Forall whole y /\ Forall whole p /\ accuracy_is y p r.
Proof.
  unfold accuracy_score, sk_labels. destruct (Nat.eqb_spec (List.length y) (List.length p)) as [L|L]; cbn [andb].
  2:{ split; [discriminate|]. intros (L' & _). congruence. }
  destruct (forallb is_int y) eqn:Y; cbn [andb].
  2:{ split; [discriminate|]. intros (_ & W & _). apply ints_spec in W. congruence. }
  destruct (forallb is_int p) eqn:P; cbn [rbind].
  2:{ split; [discriminate|]. intros (_ & _ & W & _). apply ints_spec in W. congruence. }
  apply ints_spec in Y, P. rewrite combine_len by auto. split.
  - intros [= <-]. repeat split; auto. eexists. split; [now apply matches_count|reflexivity].
  - intros (_ & _ & _ & k & M & ->). do 3 f_equal. eapply matches_fun; [now apply matches_count|exact M].
Qed.

(** ** Micro averages *)
Lemma nsum_0 f l : forall s, fold_left (fun s c => s + f c)%nat l s = (s + nsum f l)%nat.
Proof.
  induction l as [|c l IH]; intro s; unfold nsum; cbn [fold_left]; [lia|]. rewrite IH. rewrite (IH (0 + f c)%nat). lia.
Qed.
Lemma nsum_cons f c l : nsum f (c :: l) = (f c + nsum f l)%nat.
Proof. unfold nsum at 1. cbn [fold_left]. rewrite nsum_0. lia. Qed.
Lemma nsum_add f g l : nsum (fun c => f c + g c)%nat l = (nsum f l + nsum g l)%nat.
Proof. induction l as [|c l IH]; [reflexivity|]. rewrite !nsum_cons, IH. lia. Qed.
Lemma nsum_ext f g l : (forall c, In c l -> f c = g c) -> nsum f l = nsum g l.
Proof. induction l as [|c l IH]; intro H; [reflexivity|]. rewrite !nsum_cons. rewrite H by (left; auto). rewrite IH by (intros; apply H; right; auto). auto. Qed.
Lemma nsum_one x L : NoDup L -> In x L -> nsum (fun c => if req x c then 1 else 0)%nat L = 1%nat.
Proof.
  induction L as [|c L IH]; intros N I; [destruct I|]. inversion N as [|? ? N1 N2]. subst. rewrite nsum_cons.
  destruct (req_spec x c) as [->|D].
  - rewrite (nsum_ext _ (fun _ => 0%nat)).
    + enough (nsum (fun _ => 0%nat) L = 0%nat) by lia. clear. induction L; [reflexivity|]. rewrite nsum_cons. auto.
    + intros c' I'. destruct (req_spec c c') as [->|]; auto. contradiction.
  - destruct I as [->|I]; [congruence|]. rewrite IH; auto.
Qed.
Lemma nsum_none x L (b : bool) : nsum (fun c => if b && req x c then 1 else 0)%nat L = if b then nsum (fun c => if req x c then 1 else 0)%nat L else 0%nat.
Proof. destruct b; cbn [andb]; [reflexivity|]. induction L; [reflexivity|]. rewrite nsum_cons. auto. Qed.

Section Micro.
  Variable L : list R.
  Hypothesis ND : NoDup L.
  Lemma sum_pred l : (forall q, In q l -> In (snd q) L) -> nsum (pred_of l) L = List.length l.
  Proof.
    induction l as [|q l IH]; intro H.
    - unfold pred_of, count. cbn. clear. induction L; [reflexivity|]. rewrite nsum_cons. auto.
    - rewrite (nsum_ext _ (fun c => (if req (snd q) c then 1 else 0) + pred_of l c)%nat).
      + rewrite nsum_add, IH by (intros; apply H; right; auto). rewrite nsum_one; auto. apply H. left; auto.
      + intros c _. unfold pred_of. now rewrite count_cons.
  Qed.
  Lemma sum_true l : (forall q, In q l -> In (fst q) L) -> nsum (true_of l) L = List.length l.
  Proof.
    induction l as [|q l IH]; intro H.
    - unfold true_of, count. cbn. clear. induction L; [reflexivity|]. rewrite nsum_cons. auto.
    - rewrite (nsum_ext _ (fun c => (if req (fst q) c then 1 else 0) + true_of l c)%nat).
      + rewrite nsum_add, IH by (intros; apply H; right; auto). rewrite nsum_one; auto. apply H. left; auto.
      + intros c _. unfold true_of. now rewrite count_cons.
  Qed.
  Lemma sum_tp l : (forall q, In q l -> In (fst q) L) -> nsum (tp_of l) L = count (fun q => req (fst q) (snd q)) l.
  Proof.
    induction l as [|q l IH]; intro H.
    - unfold tp_of, count. cbn. clear. induction L; [reflexivity|]. rewrite nsum_cons. auto.
    - rewrite count_cons, (nsum_ext _ (fun c => (if req (fst q) (snd q) && req (fst q) c then 1 else 0) + tp_of l c)%nat).
      + rewrite nsum_add, IH by (intros; apply H; right; auto). rewrite nsum_none. rewrite nsum_one; auto. apply H. left; auto.
      + intros c _. unfold tp_of. rewrite count_cons. f_equal.
        destruct (req_spec (fst q) c) as [<-|N]; cbn [andb]; [|now rewrite andb_false_r].
        destruct (req_spec (snd q) (fst q)) as [E|N]; destruct (req_spec (fst q) (snd q)) as [E'|N']; cbn [andb]; try reflexivity; congruence.
  Qed.
End Micro.
Lemma labels_fst l q : In q l -> In (fst q) (labels l).
Proof. intro I. unfold labels. apply nodup_In, in_app_iff. left. now apply in_map. Qed.
Lemma labels_snd l q : In q l -> In (snd q) (labels l).
Proof. intro I. unfold labels. apply nodup_In, in_app_iff. right. now apply in_map. Qed.

Lemma micro_precision y p : y <> [] -> precision_score y p = accuracy_score y p.
Proof.
  intro NE. unfold precision_score, accuracy_score. destruct (sk_labels y p) as [l| |] eqn:E; cbn [rbind]; auto. cbv zeta.
  rewrite sum_pred, sum_tp; auto using NoDup_nodup, labels_fst, labels_snd; try apply NoDup_nodup.
  replace (Nat.eqb (List.length l) 0) with false; auto. symmetry. apply Nat.eqb_neq. unfold sk_labels in E.
  destruct (Nat.eqb_spec (List.length y) (List.length p)) as [L|]; cbn [andb] in E; [|discriminate].
  destruct (forallb is_int y && forallb is_int p)%bool; [|discriminate]. injection E as <-. rewrite combine_len by auto. destruct y; [congruence|discriminate].
Qed.
Lemma micro_recall y p : y <> [] -> recall_score y p = accuracy_score y p.
Proof.
  intro NE. unfold recall_score, accuracy_score. destruct (sk_labels y p) as [l| |] eqn:E; cbn [rbind]; auto. cbv zeta.
  rewrite sum_true, sum_tp; auto using labels_fst, labels_snd; try apply NoDup_nodup.
  replace (Nat.eqb (List.length l) 0) with false; auto. symmetry. apply Nat.eqb_neq. unfold sk_labels in E.
  destruct (Nat.eqb_spec (List.length y) (List.length p)) as [L|]; cbn [andb] in E; [|discriminate].
  destruct (forallb is_int y && forallb is_int p)%bool; [|discriminate]. injection E as <-. rewrite combine_len by auto. destruct y; [congruence|discriminate].
Qed.

(** ** Mean squared error *)
Lemma square_sum_eq y p : List.length y = List.length p -> square_sum y p (rsum (map (fun q => (fst q - snd q) * (fst q - snd q)) (combine y p))).
Proof.
  revert p. induction y as [|c y IH]; intros [|c' p] L; try discriminate; [constructor|]. cbn [combine map]. rewrite rsum_cons. cbn [fst snd]. injection L as L.
  replace ((c - c') * (c - c')) with ((c' - c) ^ 2) by ring. constructor. auto.
Qed.
Lemma square_sum_fun y p s s' : square_sum y p s -> square_sum y p s' -> s = s'.
Proof. intro H. revert s'. induction H; intros s' H'; inversion H'; subst; auto. f_equal; auto. Qed.
Lemma square_sum_pos y p s : square_sum y p s -> 0 <= s /\ (s = 0 <-> p = y).
Proof.
  induction 1 as [|y p s c c' H (P & Z)]; [split; [lra|tauto]|]. assert (Q := pow2_ge_0 (c' - c)). split; [lra|]. split.
  - intro E. assert (E1 : (c' - c) ^ 2 = 0) by lra. assert (E2 : s = 0) by lra. f_equal; [|now apply Z].
    assert (c' - c = 0) by (apply Rsqr_0_uniq; unfold Rsqr; rewrite <- E1; ring). lra.
  - intros [= -> Ep]. apply Z in Ep. rewrite Ep. ring.
Qed.
Lemma mse_ok y p r : mean_squared_error y p = Ok r <-> List.length y = List.length p /\ mse_is y p r.
Proof.
  unfold mean_squared_error, sk_values. destruct (Nat.eqb_spec (List.length y) (List.length p)) as [L|L]; cbn [rbind].
  2:{ split; [discriminate|]. intros (L' & _). congruence. }
  rewrite combine_len by auto. split.
  - intros [= <-]. split; auto. eexists. split; [now apply square_sum_eq|reflexivity].
  - intros (_ & s & Q & ->). do 2 f_equal. eapply square_sum_fun; [now apply square_sum_eq|exact Q].
Qed.

(** ** Finite predictions *)
Lemma all_finite_some l rs : all_finite l = Some rs <-> l = map Fin rs.
Proof.
  revert rs. induction l as [|v l IH]; intro rs.
  - cbn. split; [now intros [= <-]|]. destruct rs; [auto|discriminate].
  - cbn [all_finite]. destruct v as [r| | |]; try (split; [discriminate|]; destruct rs; discriminate).
    destruct (all_finite l) as [rs'|] eqn:E.
    + assert (E' : l = map Fin rs') by now apply IH. split.
      * intros [= <-]. cbn [map]. now rewrite E'.
      * destruct rs as [|r' rs0]; [discriminate|]. cbn [map]. intros [= -> Er]. apply IH in Er. congruence.
    + split; [discriminate|]. destruct rs as [|r' rs0]; [discriminate|]. cbn [map]. intros [= -> Er]. apply IH in Er. congruence.
Qed.
Lemma all_finite_none l : all_finite l = None <-> broken l.
Proof.
  split.
  - induction l as [|v l IH]; cbn [all_finite]; [discriminate|]. destruct v as [r| | |].
    + destruct (all_finite l) eqn:E; [discriminate|]. intros _. destruct IH as (v & I & H); auto. exists v. split; [right|]; auto.
    + intros _. exists PInf. split; [left; auto|discriminate].
    + intros _. exists NInf. split; [left; auto|discriminate].
    + intros _. exists NaN. split; [left; auto|discriminate].
  - intros (v & I & H). destruct (all_finite l) as [rs|] eqn:E; auto. apply all_finite_some in E. subst l.
    apply in_map_iff in I. destruct I as (r & <- & _). destruct (H r). reflexivity.
Qed.

Section Loop.
  Context {F : Type}.
  Variables (pred : agent_id -> predictor F) (d : tdata F) (it : Z).
  Hypotheses (NE : td_rows d <> []) (POS : (0 <= it)%Z).
  Let y := map snd (td_rows d).
  Let xs := map fst (td_rows d).
  Lemma split_ok : split_dataset d = Ok (xs, y).
  Proof. unfold split_dataset, xs, y. destruct (td_rows d); [congruence|reflexivity]. Qed.
  Lemma predict_ok a p : recorded a -> predict_agent pred a it d = Ok p <-> predicts pred xs it a p.
  Proof.
    intro R. unfold predict_agent. rewrite split_ok. cbn [rbind]. rewrite rbind_ok. unfold predicts. cbn [fst]. split.
    - intros (x & E & H). apply state_at_get in E; auto. destruct (pred (v_id a)) as [f|] eqn:P; [|discriminate]. injection H as <-. exists x, f. auto.
    - intros (x & f & S & P & ->). exists x. rewrite state_at_get by auto. split; auto. rewrite P. auto.
  Qed.
  Variable score : list R -> list R -> res R.
  Lemma loop_finite all l ps : forall ret rs, Forall recorded l -> Forall2 (predicts pred xs it) l (map (map Fin) ps) ->
    Forall2 (fun p r => score y p = Ok r) ps rs -> score_loop pred score y all d it l ret = Ok (ret ++ map Fin rs).
  Proof.
    revert l. induction ps as [|p ps IH]; intros l ret rs R H S; inversion H; inversion S; subst; cbn [score_loop map].
    - now rewrite app_nil_r.
    - inversion R; subst. rewrite (proj2 (predict_ok x (map Fin p) ltac:(auto))) by auto. cbn [rbind].
      rewrite (proj2 (all_finite_some (map Fin p) p) eq_refl). match goal with E : score y p = Ok _ |- _ => rewrite E end. cbn [rbind].
      erewrite IH by eauto. now rewrite <- app_assoc.
  Qed.
  Lemma loop_broken all l : forall qs ret, Forall recorded l -> Forall2 (predicts pred xs it) l qs ->
    (exists q, In q qs /\ broken q) -> (forall p, In (map Fin p) qs -> exists r, score y p = Ok r) ->
    score_loop pred score y all d it l ret = Ok (map (fun _ => NaN) all).
  Proof.
    induction l as [|a l IH]; intros qs ret R H B S; inversion H; subst; [now destruct B as (? & [] & _)|]. inversion R; subst.
    cbn [score_loop]. rewrite (proj2 (predict_ok a y0 ltac:(auto))) by auto. cbn [rbind].
    destruct (all_finite y0) as [p|] eqn:E; [|reflexivity]. apply all_finite_some in E. subst y0.
    destruct (S p (or_introl eq_refl)) as (r & ->). cbn [rbind]. eapply IH; eauto.
    - destruct B as (q & [<-|I] & B); [|eauto]. destruct B as (v & I & N). apply in_map_iff in I. destruct I as (r' & <- & _). now destruct (N r').
    - intros p' I. apply S. right; auto.
  Qed.
  (** what the loop returns, whenever it returns *)
  Lemma loop_inv all l : forall ret vals, Forall recorded l -> score_loop pred score y all d it l ret = Ok vals ->
    (exists ps rs, Forall2 (predicts pred xs it) l (map (map Fin) ps) /\ Forall2 (fun p r => score y p = Ok r) ps rs /\ vals = ret ++ map Fin rs) \/
    (exists a q, In a l /\ predicts pred xs it a q /\ broken q /\ vals = map (fun _ => NaN) all).
  Proof.
    induction l as [|a l IH]; intros ret vals R H; cbn [score_loop] in H.
    - injection H as <-. left. exists [], []. cbn. rewrite app_nil_r. auto.
    - inversion R; subst. apply rbind_ok in H. destruct H as (q & Q & H). apply predict_ok in Q; auto.
      destruct (all_finite q) as [p|] eqn:E.
      + apply rbind_ok in H. destruct H as (r & Sr & H). apply IH in H; auto. apply all_finite_some in E. subst q.
        destruct H as [(ps & rs & G1 & G2 & ->)|(a' & q & I & Q' & B & ->)].
        * left. exists (p :: ps), (r :: rs). cbn [map]. repeat split; try constructor; auto. now rewrite <- app_assoc.
        * right. exists a', q. repeat split; auto. right; auto.
      + apply all_finite_none in E. injection H as <-. right. exists a, q. repeat split; auto. left; auto.
  Qed.
End Loop.

(** ** Duplicates *)
Lemma dups_inv items : forall seen dups,
  find_duplicates seen dups items = [] <-> dups = [] /\ NoDup items /\ (forall s, In s items -> ~ In s seen).
Proof.
  assert (EX : forall s l, existsb (String.eqb s) l = true <-> In s l).
  { intros s l. rewrite existsb_exists. split; [intros (x & I & E); apply String.eqb_eq in E; now subst|intro I; exists s; split; auto; apply String.eqb_refl]. }
  induction items as [|s items IH]; intros seen dups; cbn [find_duplicates].
  - split; [intros ->; repeat split; auto; constructor|tauto].
  - destruct (existsb (String.eqb s) seen) eqn:E.
    + apply EX in E. rewrite IH. split.
      * intros (D & _). destruct (existsb (String.eqb s) dups) eqn:E2; [apply EX in E2; subst; destruct E2|destruct dups; discriminate].
      * intros (_ & _ & H). destruct (H s (or_introl eq_refl) E).
    + assert (E' : ~ In s seen) by (rewrite <- EX, E; discriminate). rewrite IH. split.
      * intros (-> & N & H). repeat split; auto; [constructor; auto; intro I; apply (H s I), in_app_iff; right; left; auto|].
        intros x [->|I]; auto. intro I'. apply (H x I), in_app_iff; auto.
      * intros (-> & N & H). inversion N; subst. repeat split; auto. intros x I I'. apply in_app_iff in I'. destruct I' as [I'|[<-|[]]]; [apply (H x); auto; right; auto|auto].
Qed.
