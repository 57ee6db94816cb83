(** The breakpoint search of [fit_elbow_curve]. *)
From Coq Require Import Reals List Bool Arith ZArith Lia Lra.
From Verif.Model Require Import History Vec Metrics Elbow.
From Verif.Spec Require Import CostSpec ElbowSpec.
From Verif.Proofs Require Import VecProofs CostProofs EmpiricalProofs MetricsProofs ElbowProofs.
Import ListNotations.
Local Open Scope R_scope.

(** ** argmin *)
Lemma argmin_from_spec : forall l i bi bv, (bi < i)%nat ->
  let k := argmin_from i bi bv l in
  (k = bi /\ (forall v, In v l -> bv <= v)) \/
  (exists j, k = (i + j)%nat /\ (j < length l)%nat /\ nth j l 0 <= bv /\ forall v, In v l -> nth j l 0 <= v).
Proof.
  induction l as [|v l IH]; intros i bi bv H; cbn [argmin_from]; [left; split; [reflexivity|intros ? []]|].
  cbn zeta. destruct (Rlt_dec v bv) as [L|L].
  - destruct (IH (S i) i v ltac:(lia)) as [(E & M)|(j & E & J & V & M)]; cbn zeta in *; rewrite E.
    + right. exists 0%nat. cbn [nth length]. repeat split; [lia|lia|lra|]. intros w [<-|I]; [lra|auto].
    + right. exists (S j). cbn [nth length]. repeat split; [lia|lia|lra|]. intros w [<-|I]; [lra|auto].
  - destruct (IH (S i) bi bv ltac:(lia)) as [(E & M)|(j & E & J & V & M)]; cbn zeta in *; rewrite E.
    + left. split; [reflexivity|]. intros w [<-|I]; [lra|auto].
    + right. exists (S j). cbn [nth length]. repeat split; [lia|lia|lra|]. intros w [<-|I]; [lra|auto].
Qed.
Lemma argmin_spec l : l <> [] -> (argmin l < length l)%nat /\ forall v, In v l -> nth (argmin l) l 0 <= v.
Proof.
  destruct l as [|v l]; [contradiction|]. intros _. cbn [argmin length].
  destruct (argmin_from_spec l 1 0 v ltac:(lia)) as [(E & M)|(j & E & J & V & M)]; cbn zeta in *; rewrite E.
  - split; [lia|]. cbn [nth]. intros w [<-|I]; [lra|auto].
  - split; [lia|]. cbn [nth Nat.add]. intros w [<-|I]; [lra|auto].
Qed.

(** ** The grid *)
Section Grid.
  Variables (b1 b2 num : nat).
  Hypotheses (B : (b1 <= b2)%nat) (N : (2 <= num)%nat).
  Let g := linspace_int b1 b2 num.
  Lemma grid_len : length g = num.
  Proof. unfold g, linspace_int. now rewrite map_length, seq_length. Qed.
  Lemma grid_nth i : (i < num)%nat -> nth i g 0%nat = (b1 + i * (b2 - b1) / (num - 1))%nat.
  Proof.
    intro I. unfold g, linspace_int. set (f := fun i => (b1 + i * (b2 - b1) / (num - 1))%nat).
    rewrite (nth_indep _ _ (f 0%nat)) by (rewrite map_length, seq_length; exact I).
    rewrite (map_nth f), seq_nth by exact I. reflexivity.
  Qed.
  Lemma grid_last : nth (num - 1) g 0%nat = b2.
  Proof. rewrite grid_nth by lia. rewrite Nat.mul_comm, Nat.div_mul by lia. lia. Qed.
  Lemma grid_first : nth 0 g 0%nat = b1.
  Proof. rewrite grid_nth by lia. rewrite Nat.mul_0_l, Nat.div_0_l by lia. lia. Qed.
  Lemma grid_mono i j : (i <= j)%nat -> (j < num)%nat -> (nth i g 0 <= nth j g 0)%nat.
  Proof.
    intros L J. rewrite !grid_nth by lia. apply Nat.add_le_mono_l. apply Nat.div_le_mono; [lia|]. nia.
  Qed.
  Lemma grid_range b : In b g -> (b1 <= b <= b2)%nat.
  Proof.
    intro I. apply (In_nth _ _ 0%nat) in I. destruct I as (i & L & <-). rewrite grid_len in L. split.
    - rewrite grid_nth by exact L. lia.
    - rewrite <- grid_last. apply grid_mono; lia.
  Qed.
  Lemma grid_in i : (i < num)%nat -> In (nth i g 0%nat) g.
  Proof. intro I. apply nth_In. now rewrite grid_len. Qed.
  Lemma grid_all b : (b2 - b1 <= num - 1)%nat -> (b1 <= b <= b2)%nat -> In b g.
  Proof.
    intros C H. (* smallest index whose point is at least b *)
    assert (X : forall k, (k <= num - 1)%nat -> (b <= nth k g 0)%nat -> exists i, (i <= k)%nat /\ nth i g 0%nat = b).
    { induction k as [|k IH]; intros Hk L.
      - exists 0%nat. split; [lia|]. rewrite grid_first in *. lia.
      - destruct (le_lt_dec b (nth k g 0%nat)) as [L'|L'].
        + destruct (IH ltac:(lia) L') as (i & ? & ?). exists i. split; [lia|auto].
        + exists (S k). split; [lia|]. assert (nth (S k) g 0 <= nth k g 0 + 1)%nat; [|lia].
          rewrite !grid_nth by lia. cut ((S k * (b2 - b1)) / (num - 1) <= k * (b2 - b1) / (num - 1) + 1)%nat; [lia|].
          replace (S k * (b2 - b1))%nat with (k * (b2 - b1) + (b2 - b1))%nat by lia.
          transitivity ((k * (b2 - b1) + 1 * (num - 1)) / (num - 1))%nat; [apply Nat.div_le_mono; lia|].
          rewrite Nat.div_add by lia. lia. }
    destruct (X (num - 1)%nat ltac:(lia)) as (i & I & <-); [rewrite grid_last; lia|]. apply grid_in. lia.
  Qed.
End Grid.

(** ** One pass *)
(** index [i] of the grid holds a best fit of the grid *)
Definition best_at (y : list R) (grid : list nat) (i : nat) (s y0 : R) : Prop :=
  (i < length grid)%nat /\ least_squares y s y0 (nth i grid 0%nat) /\
  forall b' s' y0', In b' grid -> sse y s y0 (nth i grid 0%nat) <= sse y s' y0' b'.

Lemma fits_ok y : forall grid, (forall b, In b grid -> (1 <= b < length y)%nat) -> exists fits,
  mapR (fit_given y) grid = Ok fits /\
  Forall2 (fun b f => snd f = sqrt (sse y (fst (fst f)) (snd (fst f)) b) /\ least_squares y (fst (fst f)) (snd (fst f)) b) grid fits.
Proof.
  induction grid as [|b grid IH]; intro H; [exists []; split; [reflexivity|constructor]|].
  destruct (IH ltac:(intros; apply H; now right)) as (fits & E & F).
  destruct (fit_given_least y b ltac:(apply H; now left)) as (s & y0 & E' & L & _).
  exists ((s, y0, sqrt (sse y s y0 b)) :: fits). cbn [mapR]. rewrite E', E. split; [reflexivity|]. constructor; auto.
Qed.

Lemma F2_nth_in {A B} (P : A -> B -> Prop) l l' a0 b0 : Forall2 P l l' -> forall i, (i < length l)%nat -> P (nth i l a0) (nth i l' b0).
Proof. induction 1 as [|a b l l' H F IH]; intros [|i] L; cbn in *; try lia; auto. apply IH. lia. Qed.
Lemma F2_len {A B} (P : A -> B -> Prop) l l' : Forall2 P l l' -> length l = length l'.
Proof. induction 1; cbn; congruence. Qed.

Lemma pass y grid : grid <> [] -> (forall b, In b grid -> (1 <= b < length y)%nat) -> exists fits,
  mapR (fit_given y) grid = Ok fits /\
  let i := argmin (map snd fits) in let f := nth i fits (0, 0, 0) in
  snd f = sqrt (sse y (fst (fst f)) (snd (fst f)) (nth i grid 0%nat)) /\ best_at y grid i (fst (fst f)) (snd (fst f)).
Proof.
  intros NE H. destruct (fits_ok y grid H) as (fits & E & F). exists fits. split; [exact E|]. cbn zeta.
  set (i := argmin (map snd fits)). pose proof (F2_len _ _ _ F) as L.
  destruct (argmin_spec (map snd fits)) as (I & M). { destruct fits; [destruct grid; [contradiction|discriminate]|discriminate]. }
  fold i in I, M. rewrite map_length, <- L in I. destruct (F2_nth_in _ _ _ 0%nat (0, 0, 0) F i I) as (R & LS).
  split; [exact R|]. split; [exact I|]. split; [exact LS|]. intros b' s' y0' I'.
  apply (In_nth _ _ 0%nat) in I'. destruct I' as (j & J & <-). destruct (F2_nth_in _ _ _ 0%nat (0, 0, 0) F j J) as (R' & LS').
  apply Rle_trans with (sse y (fst (fst (nth j fits (0, 0, 0)))) (snd (fst (nth j fits (0, 0, 0)))) (nth j grid 0%nat)); [|apply LS'].
  apply sqrt_le_0; [apply sse_nonneg|apply sse_nonneg|]. rewrite <- R, <- R'.
  assert (X : nth i (map snd fits) 0 = snd (nth i fits (0, 0, 0))) by (rewrite <- (map_nth snd fits (0, 0, 0) i); reflexivity).
  rewrite <- X. apply M. apply in_map. apply nth_In. lia.
Qed.

(** ** All passes *)
Section Search.
  Variables (y : list R) (num : nat) (tol : R).
  Hypothesis N : (2 <= num)%nat.
  (** [P] is kept by every pass; the result is a best fit of a grid with [P]. *)
  Lemma search_inv (P : nat -> nat -> Prop) :
    (forall b1 b2, P b1 b2 -> (1 <= b1 <= b2)%nat /\ (b2 < length y)%nat) ->
    (forall b1 b2 i s y0, P b1 b2 -> let g := linspace_int b1 b2 num in best_at y g i s y0 ->
       P (nth (i - 1) g 0%nat) (nth (Nat.min (num - 1) (i + 1)) g 0%nat)) ->
    forall trials b1 b2 best, (1 <= trials)%nat -> P b1 b2 ->
    exists s y0 b1' b2' i, let g := linspace_int b1' b2' num in
      search y num tol trials b1 b2 best = Ok (y0, s, (nth i g 0 - 1)%nat) /\ P b1' b2' /\ best_at y g i s y0.
  Proof.
    intros PB PS. induction trials as [|k IH]; intros b1 b2 best T HP; [lia|]. cbn [search].
    destruct (PB b1 b2 HP) as (B1 & B2).
    assert (G : forall b, In b (linspace_int b1 b2 num) -> (1 <= b < length y)%nat).
    { intros b I. apply grid_range in I; [lia|lia|exact N]. }
    destruct (pass y (linspace_int b1 b2 num)) as (fits & E & R & BA); [|exact G|].
    { intro Z. pose proof (grid_len b1 b2 num) as L. rewrite Z in L. cbn in L. lia. }
    cbn zeta in R, BA. rewrite E. cbn [rbind].
    set (i := argmin (map snd fits)) in *. set (f := nth i fits (0, 0, 0)) in *.
    set (out := (snd (fst f), fst (fst f), (nth i (linspace_int b1 b2 num) 0 - 1)%nat)).
    assert (OUT : exists s y0 b1' b2' j, let g := linspace_int b1' b2' num in
      Ok out = Ok (y0, s, (nth j g 0 - 1)%nat) /\ P b1' b2' /\ best_at y g j s y0).
    { exists (fst (fst f)), (snd (fst f)), b1, b2, i. cbn zeta. split; [reflexivity|]. split; [exact HP|exact BA]. }
    destruct (match best with None => false | Some r => _ end); [exact OUT|].
    destruct k as [|k]; [exact OUT|]. cbn [Nat.max]. apply IH; [lia|]. apply (PS b1 b2 i _ _ HP BA).
  Qed.
  Lemma step_range b1 b2 i : (1 <= b1 <= b2)%nat -> (b2 < length y)%nat -> (i < num)%nat ->
    let g := linspace_int b1 b2 num in
    (1 <= nth (i - 1) g 0 <= nth (Nat.min (num - 1) (i + 1)) g 0)%nat /\ (nth (Nat.min (num - 1) (i + 1)) g 0 < length y)%nat /\
    (nth (i - 1) g 0 <= nth i g 0 <= nth (Nat.min (num - 1) (i + 1)) g 0)%nat.
  Proof.
    intros B1 B2 I g. assert (M : forall i j, (i <= j)%nat -> (j < num)%nat -> (nth i g 0 <= nth j g 0)%nat) by (intros; apply grid_mono; auto; lia).
    assert (R1 := grid_range b1 b2 num ltac:(lia) N _ (grid_in b1 b2 num (i - 1) ltac:(lia))).
    assert (R2 := grid_range b1 b2 num ltac:(lia) N _ (grid_in b1 b2 num (Nat.min (num - 1) (i + 1)) ltac:(lia))).
    fold g in R1, R2. assert (M1 := M (i - 1)%nat i ltac:(lia) I). assert (M2 := M i (Nat.min (num - 1) (i + 1)) ltac:(lia) ltac:(lia)). lia.
  Qed.
End Search.
