(** Proofs about [run]. *)
From Coq Require Import Reals List Bool Arith ZArith Lia Lra.
From Verif.Model Require Import Vec Costs Solvers.
From Verif.Spec Require Import SolverSpec.
Import ListNotations.
Open Scope R_scope.

Section Run.
  Context (n : nat) {X St : Type} (step : nat -> sst X St -> sres (sst X St)).
  Notation after := (after step). Notation moved := (moved n).
  Variables (stop_tol max_tol : option R) (ce : Z).
  Hypothesis old : keeps_old step.

  Lemma after_det : forall (s : sst X St) k m m', after s k m -> after s k m' -> m = m'.
  Proof. intros s k m m' H. revert m'. induction H as [|k m s' H IH E]; intros m' H'; inversion H'; subst; [reflexivity|]. specialize (IH _ H1). congruence. Qed.
  Lemma change_moved : forall k m s', step k (mark m) = SRet s' -> change n s' = moved m s'.
  Proof. intros k m s' H. unfold change, SolverSpec.moved. now rewrite (old _ _ _ H). Qed.

  Definition early s k := forall tol j m1 s1, stop_tol = Some tol -> (j < k)%nat -> (Z.of_nat j mod ce = 0)%Z -> after s j m1 -> step j (mark m1) = SRet s1 -> tol < moved m1 s1.
  Definition delta_ok (k : nat) (s' : sst X St) (delta : option R) : Prop := forall tol, stop_tol = Some tol -> (Z.of_nat k mod ce = 0)%Z -> delta = Some (change n s').
  Lemma rloop_spec : forall todo k delta s m, after s k m -> early s k ->
    match rloop n step stop_tol ce todo k delta m with
    | SRaise e => exists j m1, (k <= j <= k + todo)%nat /\ after s j m1 /\ step j (mark m1) = SRaise e /\ early s j
    | SRet (s', k', d') => exists m1, (k <= k' <= k + todo)%nat /\ after s k' m1 /\ step k' (mark m1) = SRet s' /\ early s k' /\
        (k' = (k + todo)%nat \/ exists tol, stop_tol = Some tol /\ (Z.of_nat k' mod ce = 0)%Z /\ moved m1 s' <= tol) /\ delta_ok k' s' d'
    end.
  Proof.
    induction todo as [|todo IH]; intros k delta s m A E; cbn [rloop];
      destruct (step k (mark m)) as [s'|e] eqn:Es; try (exists k, m; repeat split; auto; lia); pose proof (change_moved _ _ _ Es) as Ec.
    - destruct stop_tol as [tol|] eqn:Et; [destruct (Z.eqb_spec (Z.of_nat k mod ce) 0) as [Hz|Hz]; [destruct (Rle_dec (change n s') tol)|]|];
        (exists m; rewrite Nat.add_0_r; do 4 (split; [auto; lia|]); split; [now left|]; intros t Ht Hk; congruence).
    - assert (N : forall d, early s (S k) ->
        match rloop n step stop_tol ce todo (S k) d s' with
        | SRaise e => exists j m1, (k <= j <= k + S todo)%nat /\ after s j m1 /\ step j (mark m1) = SRaise e /\ early s j
        | SRet (s', k', d') => exists m1, (k <= k' <= k + S todo)%nat /\ after s k' m1 /\ step k' (mark m1) = SRet s' /\ early s k' /\
            (k' = (k + S todo)%nat \/ exists tol, stop_tol = Some tol /\ (Z.of_nat k' mod ce = 0)%Z /\ moved m1 s' <= tol) /\ delta_ok k' s' d'
        end).
      { intros d E'. assert (A' : after s (S k) s') by (econstructor; eauto). specialize (IH (S k) d s s' A' E').
        destruct (rloop n step stop_tol ce todo (S k) d s') as [[[s2 k2] d2]|e2].
        - destruct IH as (m1 & ? & ? & ? & ? & C & ?). exists m1. split; [lia|]. do 3 (split; [assumption|]). split; [|assumption]. destruct C as [->|C]; [left; lia|now right].
        - destruct IH as (j & m1 & ? & ?). exists j, m1. split; [lia|assumption]. }
      assert (E1 : (forall tol, stop_tol = Some tol -> (Z.of_nat k mod ce = 0)%Z -> tol < moved m s') -> early s (S k)).
      { intros Hk tol j m1 s1 Ht Hj Hc A1 S1. destruct (Nat.eq_dec j k) as [->|Hne]; [|apply (E tol j); auto; lia].
        rewrite (after_det s k m1 m A1 A) in *. assert (s1 = s') by congruence. subst s1. now apply Hk. }
      destruct stop_tol as [tol|] eqn:Et.
      + destruct (Z.eqb_spec (Z.of_nat k mod ce) 0) as [Hz|Hz]; [destruct (Rle_dec (change n s') tol) as [Hle|Hgt]|].
        * exists m. split; [lia|]. do 3 (split; [assumption|]). split; [right; exists tol; rewrite <- Ec; auto|]. intros t Ht Hk. reflexivity.
        * apply N. apply E1. intros t [= <-] _. rewrite <- Ec. lra.
        * apply N. apply E1. intros; contradiction.
      + apply N. apply E1. discriminate.
  Qed.
  Lemma final_spec : forall k s' d, delta_ok k s' d ->
    final_check n stop_tol max_tol ce (s', k, d) =
      match max_tol with Some mt => if Rlt_dec mt (change n s') then SRaise SRuntimeError else SRet s' | None => SRet s' end.
  Proof.
    intros k s' d H. unfold final_check. destruct max_tol as [mt|]; [|reflexivity]. destruct stop_tol as [tol|] eqn:Et; [|reflexivity].
    destruct (Z.eqb_spec (Z.of_nat k mod ce) 0) as [Hz|Hz]; cbn [negb]; [|reflexivity]. now rewrite (H tol Et Hz).
  Qed.
End Run.

Lemma nonpositive_false : forall t, nonpositive t = false <-> forall r, t = Some r -> 0 < r.
Proof. intros [r|]; cbn; [|split; [discriminate|reflexivity]]. destruct (Rle_dec r 0); split; intros H; try discriminate; try reflexivity; [specialize (H r eq_refl); lra|intros s [= <-]; lra]. Qed.
Lemma run_good : forall n {X St} (step : nat -> sst X St -> sres (sst X St)) mi st mt fr s, good_args mi st mt fr ->
  run n step mi st mt fr s = sbind (rloop n step st (check_every_of fr mi) (Z.to_nat mi - 1) 0 None s) (final_check n st mt (check_every_of fr mi)).
Proof.
  intros n X St step mi st mt fr s (H1 & H2 & H3 & H4). unfold run.
  destruct (Z.ltb_spec mi 1); [lia|]. apply nonpositive_false in H2, H3. rewrite H2, H3.
  destruct (Rle_dec fr 0); [lra|]. destruct (Rlt_dec 1 fr); [lra|]. reflexivity.
Qed.
Lemma run_bad : forall n {X St} (step : nat -> sst X St -> sres (sst X St)) mi st mt fr s, ~ good_args mi st mt fr ->
  run n step mi st mt fr s = SRaise SValueError.
Proof.
  intros n X St step mi st mt fr s H. unfold run.
  destruct (Z.ltb_spec mi 1); [reflexivity|]. destruct (nonpositive st) eqn:E1; [reflexivity|]. destruct (nonpositive mt) eqn:E2; [reflexivity|].
  destruct (Rle_dec fr 0); [reflexivity|]. destruct (Rlt_dec 1 fr); [reflexivity|]. exfalso. apply H.
  rewrite nonpositive_false in E1, E2. repeat split; auto; lra || lia.
Qed.
Section Runs.
  Context (n : nat) {X St : Type} (step : nat -> sst X St -> sres (sst X St)).
  Hypothesis old : keeps_old step.
  Variables (mi : Z) (st mt : option R) (fr : R) (s : sst X St).
  Hypothesis good : good_args mi st mt fr.
  Let ce := check_every_of fr mi.
  Lemma stops_unique : forall k m s' k2 m2 s2, stops_after n step mi st ce s k m s' -> stops_after n step mi st ce s k2 m2 s2 -> k = k2 /\ m = m2 /\ s' = s2.
  Proof.
    assert (L : forall k m s' k2 m2 s2, stops_after n step mi st ce s k m s' -> stops_after n step mi st ce s k2 m2 s2 -> (k <= k2)%nat).
    { intros k m s' k2 m2 s2 (H1 & H2 & H3 & H4 & H5) (G1 & G2 & G3 & G4 & G5). destruct (Nat.le_gt_cases k k2) as [|Hlt]; [assumption|]. exfalso.
      destruct G5 as [G5|(tol & T & M & D)]; [lia|]. specialize (H4 tol k2 m2 s2 T Hlt M G2 G3). lra. }
    intros k m s' k2 m2 s2 H G. assert (k = k2) by (apply Nat.le_antisymm; eauto). subst k2. destruct H as (_ & A & E & _), G as (_ & A2 & E2 & _).
    rewrite (after_det step s k m2 m A2 A) in *. split; [reflexivity|]. split; congruence.
  Qed.
  Lemma run_spec : (exists k m s', stops_after n step mi st ce s k m s' /\
      run n step mi st mt fr s = match mt with Some t => if Rlt_dec t (moved n m s') then SRaise SRuntimeError else SRet s' | None => SRet s' end) \/
    (exists k m e, (Z.of_nat k < mi)%Z /\ after step s k m /\ step k (mark m) = SRaise e /\ run n step mi st mt fr s = SRaise e /\
      forall j m' s', ~ stops_after n step mi st ce s j m' s').
  Proof.
    rewrite run_good by exact good. fold ce. destruct good as (Hmi & _).
    pose proof (rloop_spec n step st ce old (Z.to_nat mi - 1) 0 None s s (after_0 step s)) as R.
    assert (E0 : early n step st ce s 0) by (intros tol j m1 s1 _ Hj; lia). specialize (R E0). clear E0.
    destruct (rloop n step st ce (Z.to_nat mi - 1) 0 None s) as [[[s' k] d]|e]; cbn [sbind].
    - left. destruct R as (m & Hk & A & E & Ea & C & D). exists k, m, s'. split.
      + repeat split; auto; [lia|]. destruct C as [->|C]; [left; lia|now right].
      + rewrite final_spec by exact D. now rewrite (change_moved n step old k m s' E).
    - right. destruct R as (k & m & Hk & A & E & Ea). exists k, m, e. repeat split; auto; [lia|].
      intros j m' s' (H1 & H2 & H3 & H4 & H5). destruct (Nat.lt_trichotomy j k) as [Hj|[Hj|Hj]].
      + destruct H5 as [H5|(tol & T & M & D)]; [lia|]. specialize (Ea tol j m' s' T Hj M H2 H3). lra.
      + subst j. rewrite (after_det step s k m' m H2 A) in H3. congruence.
      + assert (P : forall i mi', after step s i mi' -> (k < i)%nat -> False).
        { clear - A E. induction i as [|i IH]; intros mi' Hi Hlt; [lia|]. inversion Hi as [|i' m0 s0 Ha Hs]; subst. destruct (Nat.eq_dec i k) as [->|]; [|eapply IH; eauto; lia].
          rewrite (after_det step s k m0 m Ha A) in Hs. congruence. }
        eapply P; eauto.
  Qed.
End Runs.
Lemma gd_keeps : forall {St} (g : vec -> St -> option (vec * St)) L mu p, keeps_old (gd_step g L mu p).
Proof. intros St g L mu p k s s'. unfold gd_step. destruct (gd_size L mu p k), (g (s_x s) (s_env s)) as [[? ?]|]; try discriminate. now intros [= <-]. Qed.
Lemma agd_keeps : forall {St} (g : vec -> St -> option (vec * St)) L mu p pm, keeps_old (agd_step g L mu p pm).
Proof. intros St g L mu p pm k s s'. unfold agd_step. destruct (agd_size L p), (g (s_aux s) (s_env s)) as [[? ?]|], (agd_momentum L mu pm k); try discriminate. now intros [= <-]. Qed.
