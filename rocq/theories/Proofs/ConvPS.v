(** ProxSkip converges linearly in mean square. *)
From Coq Require Import Reals String List Bool Lra Lia Arith FunctionalExtensionality.
From Verif.Model Require Import PyDict History Messages Network Runner Vec P2P.
From Verif.Spec Require Import CostSpec NetworkSpec P2PSpec ConvSpec.
From Verif.Proofs Require Import NetworkProofs CostProofs VecProofs EmpiricalProofs P2PRuns P2PMean P2PFixed ConvStack ConvSolve ConvED ConvDGD ConvGT.
Import ListNotations.
Open Scope R_scope.

Lemma expect_le p N f g : 0 <= p <= 1 -> (forall l, length l = N -> f l <= g l) -> expect p N f <= expect p N g.
Proof.
  intro P. revert f g. induction N as [|N IH]; intros f g H; cbn [expect]; [apply H; reflexivity|].
  assert (H1 : expect p N (fun l => f (true :: l)) <= expect p N (fun l => g (true :: l))) by (apply IH; intros; apply H; cbn; lia).
  assert (H2 : expect p N (fun l => f (false :: l)) <= expect p N (fun l => g (false :: l))) by (apply IH; intros; apply H; cbn; lia).
  apply Rmult_le_compat_l with (r := p) in H1; [|lra]. apply Rmult_le_compat_l with (r := 1 - p) in H2; [|lra]. lra.
Qed.

Lemma choice_flips {A : Type} N : forall (P : list bool -> A -> Prop), (forall l, length l = N -> exists x, P l x) -> exists f, forall l, length l = N -> P l (f l).
Proof.
  induction N as [|N IH]; intros P H.
  - destruct (H [] eq_refl) as (x & Px). exists (fun _ : list bool => x). intros [|] Q; [exact Px|discriminate].
  - destruct (IH (fun l => P (true :: l))) as (f1 & H1); [intros l Q; apply H; cbn; lia|].
    destruct (IH (fun l => P (false :: l))) as (f2 & H2); [intros l Q; apply H; cbn; lia|].
    exists (fun l : list bool => match l with o :: r => if o then f1 r else f2 r | [] => f1 [] end).
    intros [|[|] r] Q; cbn [length] in Q; [discriminate| |]; [apply H1|apply H2]; lia.
Qed.

Section Step.
  Variables (t : topo) (n : nat) (W : agent_id -> agent_id -> R) (lam : R).
  Hypothesis ND : NoDup (t_nodes t).
  Hypothesis MX : mixing t W.
  Notation nodes := (t_nodes t).
  Notation ip := (ip nodes n).
  Notation A := (Ah t W).
  Notation "X == Y" := (seq_ nodes n X Y) (at level 70).
  Hypothesis L01 : 0 < lam <= 1.
  Hypothesis GAP : forall X, lam * ip X (A X) <= ip (A X) (A X).
  Variables (F : agent_id -> vec -> R) (G : agent_id -> vec -> vec) (m L a : R) (xs : vec) (c b p : R).
  Hypothesis SC : forall i, In i nodes -> smooth_strongly_convex n (F i) (G i) m L.
  Hypothesis MP : 0 < m.
  Hypothesis LP : 0 < L.
  Hypothesis AP : 0 < a.
  Hypothesis AL : a * L < 2.
  Hypothesis CP : 0 < c <= 1.
  Hypothesis BP : 0 < b <= p.
  Hypothesis P1 : p <= 1.
  Notation cs := (fun _ : agent_id => xs).
  Definition ys : stk := fun i => vscal (- a) (G i xs).
  Definition zt (x s : stk) : stk := fun i => vsub (vsub (x i) (vscal a (G i (x i)))) (vadd (ys i) (vscal c (A s i))).
  Definition dstep (st : stk * stk) (o : bool) : stk * stk :=
    let (x, s) := st in if o then (ssub (zt x s) (sscal c (A (zt x s))), sadd s (sscal b (zt x s))) else (zt x s, s).
  Definition Vp (st : stk * stk) : R := ip (ssub (fst st) cs) (ssub (fst st) cs) + / (p * b) * (c * ip (snd st) (A (snd st))).
  Definition prate : R := Rmax (1 - a * m * (2 - a * L)) (1 - p * b * (c * lam)).
  Lemma pb : 0 < p * b. Proof. apply Rmult_lt_0_compat; lra. Qed.
  Lemma Vp_pos st : 0 <= Vp st.
  Proof.
    unfold Vp. pose proof (ip_pos nodes n (ssub (fst st) cs)). pose proof (Ah_psd t n W ND MX (snd st)). pose proof pb as PB.
    assert (0 < / (p * b)) by now apply Rinv_0_lt_compat. assert (0 <= / (p * b) * (c * ip (snd st) (A (snd st)))) by (apply Rmult_le_pos; [lra|apply Rmult_le_pos; lra]). lra.
  Qed.
  Lemma Vp_err st : ip (ssub (fst st) cs) (ssub (fst st) cs) <= Vp st.
  Proof.
    unfold Vp. pose proof (Ah_psd t n W ND MX (snd st)). pose proof pb as PB.
    assert (0 < / (p * b)) by now apply Rinv_0_lt_compat. assert (0 <= / (p * b) * (c * ip (snd st) (A (snd st)))) by (apply Rmult_le_pos; [lra|apply Rmult_le_pos; lra]). lra.
  Qed.
  Lemma Vp_avg st : p * Vp (dstep st true) + (1 - p) * Vp (dstep st false) <= prate * Vp st.
  Proof.
    destruct st as (x, s). unfold Vp, dstep. cbn [fst snd]. set (z := zt x s). set (e := ssub x cs). set (ze := ssub z cs).
    set (u := fun i => vsub (vsub (x i) (vscal a (G i (x i)))) (vsub xs (vscal a (G i xs)))).
    pose proof pb as PB. assert (IPB : 0 < / (p * b)) by now apply Rinv_0_lt_compat.
    assert (AZ : A z == A ze).
    { intros i I k C. unfold ze. rewrite Ah_sub. unfold ssub, vsub. rewrite (Ah_const t W ND MX xs i I). unfold vzero. lra. }
    assert (E1 : ssub (ssub z (sscal c (A z))) cs == ssub ze (sscal c (A ze))).
    { intros i I k C. pose proof (AZ i I k C) as H. unfold ze at 1. unfold ssub, sscal, vsub, vscal in *. rewrite H. lra. }
    assert (AS : A (sadd s (sscal b z)) == A (sadd s (sscal b ze))).
    { intros i I k C. pose proof (AZ i I k C) as H. rewrite !Ah_add, !Ah_scal. unfold sadd, sscal, vadd, vscal. rewrite H. reflexivity. }
    assert (E2 : ip (sadd s (sscal b z)) (A (sadd s (sscal b z))) = ip (sadd s (sscal b ze)) (A (sadd s (sscal b ze)))).
    { rewrite (ip_ext nodes n _ _ _ _ (seq_refl nodes n (sadd s (sscal b z))) AS). rewrite <- (Ah_sym t n W MX (sadd s (sscal b z))).
      rewrite (ip_ext nodes n _ _ _ _ AS (seq_refl nodes n _)). apply Ah_sym; auto. }
    assert (E3 : ze == ssub u (sscal c (A s))).
    { intros i I k C. unfold ze, z, zt, u, ys, ssub, sscal, vsub, vadd, vscal. lra. }
    rewrite (ip_ext nodes n _ _ _ _ E1 E1), E2. fold ze.
    assert (U : ip u u <= (1 - a * m * (2 - a * L)) * ip e e).
    { unfold ConvStack.ip. rewrite <- rsum_map_scal. apply rs_le. intros i I. unfold u, e, ssub.
      apply (step_contracts n (F i) (G i) m L (SC i I) ltac:(lra) LP a (x i) xs ltac:(lra) ltac:(lra)). }
    assert (UU : ip u u = ip ze ze + 2 * c * ip ze (A s) + c * c * ip (A s) (A s)).
    { assert (E4 : u == sadd ze (sscal c (A s))) by (intros i I k C; pose proof (E3 i I k C) as H; unfold sadd, ssub, sscal, vadd, vsub, vscal in *; lra).
      rewrite (ip_ext nodes n _ _ _ _ E4 E4), !ip_add_l, !ip_add_r, !ip_scal_l, !ip_scal_r, (ip_sym nodes n (A s) ze). lra. }
    pose proof (Ah_sq t n W ND MX ze) as SQ. pose proof (Ah_psd t n W ND MX ze) as PZ. pose proof (Ah_psd t n W ND MX s) as PS. pose proof (GAP s) as GS.
    rewrite !ip_sub_l, !ip_sub_r, !Ah_add, !Ah_scal, !ip_add_l, !ip_add_r, !ip_scal_l, !ip_scal_r.
    rewrite (ip_sym nodes n (A ze) ze). assert (S1 : ip s (A ze) = ip ze (A s)) by (rewrite <- Ah_sym by auto; apply ip_sym). rewrite S1.
    set (ee := ip e e) in *. set (zz := ip ze ze) in *. set (za := ip ze (A ze)) in *. set (aa := ip (A ze) (A ze)) in *. set (zs := ip ze (A s)) in *.
    set (ss := ip s (A s)) in *. set (sq := ip (A s) (A s)) in *.
    assert (EE0 : 0 <= ee) by apply ip_pos. 
    (* the communication terms *)
    assert (K1 : p * (c * (c * aa)) <= p * (c * za)).
    { apply Rmult_le_compat_l; [lra|]. apply Rmult_le_compat_l; [lra|]. apply Rle_trans with (1 * za); [|lra]. apply Rle_trans with (c * za); [apply Rmult_le_compat_l; lra|apply Rmult_le_compat_r; lra]. }
    assert (K2 : b * (c * za) <= p * (c * za)) by (apply Rmult_le_compat_r; [apply Rmult_le_pos; lra|lra]).
    assert (K3 : lam * (c * c * ss) <= c * c * sq).
    { replace (lam * (c * c * ss)) with (c * c * (lam * ss)) by lra. apply Rmult_le_compat_l; [apply Rmult_le_pos; lra|exact GS]. }
    assert (R1 : (1 - a * m * (2 - a * L)) * ee <= prate * ee) by (apply Rmult_le_compat_r; auto; apply Rmax_l).
    assert (R2 : (1 - p * b * (c * lam)) * (/ (p * b) * (c * ss)) <= prate * (/ (p * b) * (c * ss))).
    { apply Rmult_le_compat_r; [apply Rmult_le_pos; [lra|apply Rmult_le_pos; lra]|apply Rmax_r]. }
    replace ((1 - p * b * (c * lam)) * (/ (p * b) * (c * ss))) with (/ (p * b) * (c * ss) - lam * (c * c * ss)) in R2 by (field; lra).
    replace (p * (zz - c * za - (c * za - c * (c * aa)) + / (p * b) * (c * (ss + b * zs + (b * zs + b * (b * za))))) + (1 - p) * (zz + / (p * b) * (c * ss)))
      with (zz - 2 * (p * (c * za)) + p * (c * (c * aa)) + / (p * b) * (c * ss) + 2 * c * zs + b * (c * za)) by (field; lra).
    lra.
  Qed.
  Lemma prate_range : 0 <= prate < 1.
  Proof.
    assert (X : 0 < p * b * (c * lam) <= 1).
    { pose proof pb. assert (CL : 0 < c * lam) by (apply Rmult_lt_0_compat; lra). split; [now apply Rmult_lt_0_compat|].
      assert (p * b <= 1 * 1) by (apply Rmult_le_compat; lra). assert (c * lam <= 1 * 1) by (apply Rmult_le_compat; lra).
      assert (p * b * (c * lam) <= 1 * 1) by (apply Rmult_le_compat; lra). lra. }
    unfold prate. split; [eapply Rle_trans; [|apply Rmax_r]; lra|]. apply Rmax_lub_lt; [|lra].
    assert (0 < a * m * (2 - a * L)); [|lra]. apply Rmult_lt_0_compat; [now apply Rmult_lt_0_compat|lra].
  Qed.
  Lemma Vp_expect N : forall st, expect p N (fun l => Vp (fold_left dstep l st)) <= prate ^ N * Vp st.
  Proof.
    induction N as [|N IH]; intro st; cbn [expect fold_left pow]; [lra|].
    pose proof (IH (dstep st true)) as H1. pose proof (IH (dstep st false)) as H2. pose proof (Vp_avg st) as H3. pose proof (pow_le prate N (proj1 prate_range)) as PW.
    apply Rmult_le_compat_l with (r := p) in H1; [|lra]. apply Rmult_le_compat_l with (r := 1 - p) in H2; [|lra].
    apply Rmult_le_compat_l with (r := prate ^ N) in H3; [|exact PW]. lra.
  Qed.
End Step.

Section Run.
  Variables (t : topo) (n : nat) (W : agent_id -> agent_id -> R).
  Hypothesis PT : p2p_topo t.
  Hypothesis CN : connected t.
  Hypothesis MX : mixing t W.
  Notation nodes := (t_nodes t).
  Notation ip := (ip nodes n).
  Notation A := (Ah t W).
  Lemma damped_row chi Z i k : chi <> 0 -> In i nodes -> row_of t (damped W chi) Z i k = Z i k - / chi * A Z i k.
  Proof.
    intros CH I. pose proof (p2p_nodup t PT) as ND. pose proof (f_equal (fun v => v k) (row_ident t ND Z i I)) as E. cbv beta in E. rewrite <- E at 1.
    unfold Ah, row_of. rewrite <- rsum_map_scal, <- rsum_map_sub. apply rsum_map_ext. intros j _. unfold damped, half_minus. field. exact CH.
  Qed.

  Section Exec.
    Variables (lam : R) (F : agent_id -> vec -> R) (G : agent_id -> vec -> vec) (m L a : R) (xs : vec) (b p chi : R).
    Hypothesis L01 : 0 < lam <= 1.
    Hypothesis GAP : forall X, lam * ip X (A X) <= ip (A X) (A X).
    Hypothesis SC : forall i, In i nodes -> smooth_strongly_convex n (F i) (G i) m L.
    Hypothesis MP : 0 < m.
    Hypothesis LP : 0 < L.
    Hypothesis AP : 0 < a.
    Hypothesis AL : a * L < 2.
    Hypothesis BP : 0 < b <= p.
    Hypothesis P1 : p <= 1.
    Hypothesis CH : 1 <= chi.
    Definition zx (x y : stk) : stk := fun j => vsub (vsub (x j) (vscal a (G j (x j)))) (y j).
    Definition xstep (st : stk * stk * stk) (o : bool) : stk * stk * stk :=
      let '(x, y, s) := st in let z := zx x y in
      if o then let x' := row_of t (damped W chi) z in (x', sadd y (sscal b (ssub z x')), sadd s (sscal b z)) else (z, y, s).
    Definition ginv (st : stk * stk * stk) : Prop :=
      let '(x, y, s) := st in seq_ nodes n y (sadd (ys G a xs) (sscal (/ chi) (A s))).
    Definition Vx (st : stk * stk * stk) : R := let '(x, y, s) := st in Vp t n W xs (/ chi) b p (x, s).
    Lemma chi_c : 0 < / chi <= 1.
    Proof. split; [apply Rinv_0_lt_compat; lra|rewrite <- Rinv_1; apply Rinv_le_contravar; lra]. Qed.
    Lemma Vp_ext x x' s s' : seq_ nodes n x x' -> seq_ nodes n s s' -> Vp t n W xs (/ chi) b p (x, s) = Vp t n W xs (/ chi) b p (x', s').
    Proof.
      intros E1 E2. unfold Vp. cbn [fst snd]. rewrite (ip_ext nodes n _ _ _ _ E2 (Ah_ext t n W _ _ E2)).
      assert (E3 : seq_ nodes n (ssub x (fun _ => xs)) (ssub x' (fun _ => xs))) by (intros i I c C; unfold ssub, vsub; now rewrite (E1 i I c C)).
      now rewrite (ip_ext nodes n _ _ _ _ E3 E3).
    Qed.
    Lemma zx_zt x y s : ginv (x, y, s) -> seq_ nodes n (zx x y) (zt t W G a xs (/ chi) x s).
    Proof.
      intros H i I c C. pose proof (H i I c C) as E. unfold zx, zt, vsub, vadd, vscal in *. rewrite E. unfold sadd, sscal, vadd, vscal. reflexivity.
    Qed.
    Lemma ginv_step st o : ginv st -> ginv (xstep st o).
    Proof.
      destruct st as ((x, y), s). intro H. unfold xstep. destruct o; [|exact H]. cbv zeta. cbn [ginv]. intros i I c C.
      pose proof (H i I c C) as E. rewrite Ah_add, Ah_scal. unfold sadd, sscal, ssub, vadd, vscal, vsub in *.
      rewrite (damped_row chi (zx x y) i c ltac:(lra) I). rewrite E. lra.
    Qed.
    Lemma Vx_step st o : ginv st -> Vx (xstep st o) = Vp t n W xs (/ chi) b p (dstep t W G a xs (/ chi) b (fst (fst st), snd st) o).
    Proof.
      destruct st as ((x, y), s). intro H. pose proof (zx_zt x y s H) as Z. unfold xstep, dstep. cbn [fst snd]. destruct o; cbv zeta; unfold Vx; cbv beta iota; apply Vp_ext; try exact Z; try (intros ? ? ? ?; reflexivity).
      - intros i I c C. rewrite damped_row; [|lra|exact I]. unfold ssub, sscal, vsub, vscal. rewrite (Z i I c C), (Ah_ext t n W _ _ Z i I c C). reflexivity.
      - intros i I c C. unfold sadd, sscal, vadd, vscal. now rewrite (Z i I c C).
    Qed.
    Lemma Vx_avg st : ginv st -> p * Vx (xstep st true) + (1 - p) * Vx (xstep st false) <= prate lam m L a (/ chi) b p * Vx st.
    Proof.
      intro H. rewrite !Vx_step by exact H. destruct st as ((x, y), s). cbn [fst snd]. unfold Vx. cbv beta iota.
      pose proof chi_c. pose proof (p2p_nodup t PT). eapply Vp_avg; eauto; lra.
    Qed.
    Lemma rate_range : 0 <= prate lam m L a (/ chi) b p < 1.
    Proof. pose proof chi_c. eapply prate_range; eauto; lra. Qed.
    Lemma Vx_expect N : forall st, ginv st -> expect p N (fun l => Vx (fold_left xstep l st)) <= prate lam m L a (/ chi) b p ^ N * Vx st.
    Proof.
      induction N as [|N IH]; intros st H; cbn [expect fold_left pow]; [lra|].
      pose proof (IH _ (ginv_step st true H)) as H1. pose proof (IH _ (ginv_step st false H)) as H2. pose proof (Vx_avg st H) as H3.
      pose proof (pow_le _ N (proj1 rate_range)) as PW.
      apply Rmult_le_compat_l with (r := p) in H1; [|lra]. apply Rmult_le_compat_l with (r := 1 - p) in H2; [|lra].
      apply Rmult_le_compat_l with (r := prate lam m L a (/ chi) b p ^ N) in H3; [|exact PW]. lra.
    Qed.
    Lemma Vx_err st : ip (ssub (fst (fst st)) (fun _ => xs)) (ssub (fst (fst st)) (fun _ => xs)) <= Vx st.
    Proof.
      destruct st as ((x, y), s). cbn [fst snd]. unfold Vx. cbv beta iota. pose proof chi_c. pose proof (p2p_nodup t PT).
      eapply Rle_trans; [|eapply Vp_err; eauto; lra]. cbn [fst]. lra.
    Qed.
    Lemma firstn_flip (l : list bool) k : (k < length l)%nat -> firstn (S k) l = firstn k l ++ [flips l k].
    Proof. unfold flips. revert l. induction k as [|k IH]; intros [|o l] K; cbn [length] in K; try lia; [reflexivity|]. cbn [firstn app nth]. f_equal. apply IH. lia. Qed.
  End Exec.

  Theorem prox_skip_converges : exists lam, 0 < lam <= 1 /\ forall F G grad m L a b chi p xs,
    (forall i, In i nodes -> smooth_strongly_convex n (F i) (G i) m L) -> 0 < m -> 0 < L -> exact_gradients grad G -> minimises nodes F xs ->
    0 < a -> a * L < 2 -> 0 < b <= p -> p <= 1 -> 1 <= chi ->
    let q := Rmax (1 - a * m * (2 - a * L)) (1 - p * b * (/ chi * lam)) in 0 <= q < 1 /\
    forall x0, exists C, forall e period N w, synchronous e ->
      exists X, (forall l, length l = N -> trajectory t period (p2p t e N (ps_init x0) (prox_skip W grad (flips l) chi a b)) w (X l)) /\
        expect p N (fun l => sq_error nodes n (X l N) xs) <= C * q ^ N.
  Proof.
    pose proof (p2p_nodup t PT) as ND. destruct (gap t n W ND MX CN (p2p_edges t PT)) as (lam & L01 & GAP & _). exists lam. split; [exact L01|].
    intros F G grad m L a b chi p xs SC MP LP EG MIN AP AL BP P1 CH q.
    change q with (prate lam m L a (/ chi) b p).
    split; [apply rate_range; auto|]. intro x0.
    destruct (dual_exists t n W PT CN MX F G m L (- (a * chi)) xs LP SC MIN) as (s0 & S0).
    set (st0 := (x0, (fun _ => vzero) : stk, s0) : stk * stk * stk).
    exists (Vx xs b p chi st0). intros e period N w SY.
    assert (RUN : forall l, exists X : nat -> stk, length l = N -> trajectory t period (p2p t e N (ps_init x0) (prox_skip W grad (flips l) chi a b)) w X /\
      forall i, In i nodes -> X N i = fst (fst (fold_left (xstep G a b chi) l st0)) i).
    { intro l. destruct (prox_skip_run t e PT SY W ltac:(apply MX) grad period N w (flips l) chi a b x0) as (X & Y & Gk & TR & _ & I0 & ST).
      exists X. intro LN. split; [exact TR|].
      assert (INV : forall k, (k <= N)%nat -> let d := fold_left (xstep G a b chi) (firstn k l) st0 in
        forall i, In i nodes -> X k i = fst (fst d) i /\ Y k i = snd (fst d) i).
      { induction k as [|k IH]; intro K; cbv zeta in *.
        - intros i _. cbn [firstn fold_left]. unfold st0. cbn [fst snd]. apply I0.
        - specialize (IH ltac:(lia)). rewrite firstn_flip by lia. rewrite fold_left_app. cbn [fold_left].
          destruct (fold_left (xstep G a b chi) (firstn k l) st0) as ((x, y), s) eqn:D. cbn [fst snd] in IH.
          assert (ZE : forall j, In j nodes -> vsub (vsub (X k j) (vscal a (Gk k j))) (Y k j) = zx G a x y j).
          { intros j J. destruct (ST k j ltac:(lia) J) as ((d & GE) & _). destruct (IH j J) as (EX & EY). rewrite GE, EG, EX, EY. reflexivity. }
          intros i I. destruct (ST k i ltac:(lia) I) as (_ & SX & SYy). destruct (IH i I) as (EX & EY).
          unfold xstep. destruct (flips l k); cbv zeta; cbn [fst snd].
          + assert (XE : X (S k) i = row_of t (damped W chi) (zx G a x y) i).
            { rewrite SX. apply functional_extensionality. intro c. unfold row_of. apply rsum_map_ext. intros j J. now rewrite ZE. }
            split; [exact XE|]. rewrite SYy, XE, (ZE i I), EY. reflexivity.
          + split; [rewrite SX; now apply ZE|now rewrite SYy]. }
      intros i I. pose proof (INV N ltac:(lia) i I) as (E & _). rewrite <- LN, firstn_all in E. rewrite <- LN. exact E. }
    destruct (choice_flips N (fun l X => trajectory t period (p2p t e N (ps_init x0) (prox_skip W grad (flips l) chi a b)) w X /\
      forall i, In i nodes -> X N i = fst (fst (fold_left (xstep G a b chi) l st0)) i)) as (X & HX).
    { intros l LN. destruct (RUN l) as (X & H). exists X. apply H, LN. }
    exists X. split; [intros l LN; apply (HX l LN)|].
    assert (G0 : ginv G a xs chi st0).
    { unfold ginv, st0. intros i I c C. unfold sadd, sscal, ys, vadd, vscal, vzero. rewrite (S0 i I c C). unfold vscal. field. lra. }
    eapply Rle_trans; [|rewrite Rmult_comm; eapply (Vx_expect lam F G m L a xs b p chi); eauto].
    apply expect_le; [lra|]. intros l LN. destruct (HX l LN) as (_ & E).
    eapply Rle_trans; [|eapply Vx_err; eauto]. unfold sq_error, ConvStack.ip. apply rs_le. intros i I. rewrite (E i I). unfold ssub, nrm2. lra.
  Qed.
End Run.
