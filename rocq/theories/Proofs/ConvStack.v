(** Inner products of stacked vectors, mixing operators and their spectral gap. *)
From Coq Require Import Reals List Lra Lia Arith FunctionalExtensionality.
From Verif.Model Require Import PyDict History Messages Network Vec.
From Verif.Spec Require Import CostSpec P2PSpec ConvSpec.
From Verif.Proofs Require Import CostProofs VecProofs EmpiricalProofs P2PRuns P2PFixed.
Import ListNotations.
Open Scope R_scope.

Lemma rs_le {A} (f g : A -> R) l : (forall x, In x l -> f x <= g x) -> rsum (map f l) <= rsum (map g l).
Proof.
  induction l as [|a l IH]; intro H; cbn [map]; rewrite ?rsum_nil, ?rsum_cons; [lra|].
  assert (f a <= g a) by (apply H; now left). assert (rsum (map f l) <= rsum (map g l)) by (apply IH; intros; apply H; now right). lra.
Qed.
Lemma rs_nonneg {A} (f : A -> R) l : (forall x, In x l -> 0 <= f x) -> 0 <= rsum (map f l).
Proof.
  induction l as [|a l IH]; intro H; cbn [map]; rewrite ?rsum_nil, ?rsum_cons; [lra|].
  assert (0 <= f a) by (apply H; now left). assert (0 <= rsum (map f l)) by (apply IH; intros; apply H; now right). lra.
Qed.
Lemma rs_const {A} (c : R) (l : list A) : rsum (map (fun _ => c) l) = INR (length l) * c.
Proof. induction l as [|a l IH]; cbn [map length]; rewrite ?rsum_nil, ?rsum_cons; [cbn; lra|]. rewrite IH, S_INR. lra. Qed.
Lemma rs_in {A} (f : A -> R) l a : In a l -> (forall x, In x l -> 0 <= f x) -> f a <= rsum (map f l).
Proof.
  induction l as [|b l IH]; [intros []|]; intros [-> |I] H; cbn [map]; rewrite rsum_cons.
  - assert (0 <= rsum (map f l)) by (apply rs_nonneg; intros; apply H; now right). lra.
  - assert (0 <= f b) by (apply H; now left). assert (f a <= rsum (map f l)) by (apply IH; auto; intros; apply H; now right). lra.
Qed.
Lemma rs_scal_r {A} (f : A -> R) a l : rsum (map (fun x => f x * a) l) = rsum (map f l) * a.
Proof. rewrite (rsum_map_ext (fun x => f x * a) (fun x => a * f x)) by (intros; lra). rewrite rsum_map_scal. lra. Qed.
Lemma dot_rsum {A} n (f : A -> vec) (c : A -> R) l y :
  dot n (fun k => rsum (map (fun j => c j * f j k) l)) y = rsum (map (fun j => c j * dot n (f j) y) l).
Proof.
  induction l as [|a l IH]; cbn [map]; rewrite ?rsum_nil, ?rsum_cons.
  - rewrite (dot_ext n _ vzero y y) by (intros; reflexivity). apply dot_zero_l.
  - rewrite <- IH, <- dot_scal_l, <- dot_add_l. apply dot_ext; intros; auto. unfold vadd, vscal. cbn [map]. now rewrite rsum_cons.
Qed.

(** ** Stacked vectors *)
Definition stk := agent_id -> vec.
Definition sadd (X Y : stk) : stk := fun i => vadd (X i) (Y i).
Definition ssub (X Y : stk) : stk := fun i => vsub (X i) (Y i).
Definition sscal (a : R) (X : stk) : stk := fun i => vscal a (X i).

Section Stack.
  Variables (nodes : list agent_id) (n : nat).
  Definition ip (X Y : stk) : R := rsum (map (fun i => dot n (X i) (Y i)) nodes).
  Lemma ip_sym X Y : ip X Y = ip Y X.
  Proof. apply rsum_map_ext. intros; apply dot_sym. Qed.
  Lemma ip_add_l X Y Z : ip (sadd X Y) Z = ip X Z + ip Y Z.
  Proof. unfold ip. rewrite <- rsum_map_add. apply rsum_map_ext. intros; apply dot_add_l. Qed.
  Lemma ip_add_r X Y Z : ip Z (sadd X Y) = ip Z X + ip Z Y.
  Proof. rewrite ip_sym, ip_add_l, (ip_sym X), (ip_sym Y). reflexivity. Qed.
  Lemma ip_sub_l X Y Z : ip (ssub X Y) Z = ip X Z - ip Y Z.
  Proof. unfold ip. rewrite <- rsum_map_sub. apply rsum_map_ext. intros; apply dot_sub_l. Qed.
  Lemma ip_sub_r X Y Z : ip Z (ssub X Y) = ip Z X - ip Z Y.
  Proof. rewrite ip_sym, ip_sub_l, (ip_sym X), (ip_sym Y). reflexivity. Qed.
  Lemma ip_scal_l a X Z : ip (sscal a X) Z = a * ip X Z.
  Proof. unfold ip. rewrite <- rsum_map_scal. apply rsum_map_ext. intros; apply dot_scal_l. Qed.
  Lemma ip_scal_r a X Z : ip Z (sscal a X) = a * ip Z X.
  Proof. rewrite ip_sym, ip_scal_l, ip_sym. reflexivity. Qed.
  Lemma ip_pos X : 0 <= ip X X.
  Proof. apply rs_nonneg. intros; apply nrm2_nonneg. Qed.
  (** equality as far as it matters *)
  Definition seq_ (X Y : stk) : Prop := forall i, In i nodes -> forall c, (c < n)%nat -> X i c = Y i c.
  Lemma ip_ext X X' Y Y' : seq_ X X' -> seq_ Y Y' -> ip X Y = ip X' Y'.
  Proof. intros H H'. apply rsum_map_ext. intros i I. apply dot_ext; intros; [apply H|apply H']; auto. Qed.
  Lemma ip_young X Y s : 0 < s -> 2 * ip X Y <= s * ip X X + / s * ip Y Y.
  Proof.
    intro S. assert (N : / s <> 0) by (apply Rinv_neq_0_compat; lra).
    pose proof (ip_pos (ssub (sscal s X) Y)) as H.
    rewrite ip_sub_l, !ip_sub_r, !ip_scal_l, !ip_scal_r, (ip_sym Y X) in H.
    assert (E : / s * (s * (s * ip X X) - s * ip X Y - (s * ip X Y - ip Y Y)) = s * ip X X + / s * ip Y Y - 2 * ip X Y) by (field; lra).
    assert (0 <= / s * (s * (s * ip X X) - s * ip X Y - (s * ip X Y - ip Y Y))) by (apply Rmult_le_pos; auto; left; apply Rinv_0_lt_compat; lra).
    lra.
  Qed.
End Stack.

(** ** Mixing operators *)
Section Mix.
  Variables (t : topo) (n : nat) (W : agent_id -> agent_id -> R).
  Hypothesis ND : NoDup (t_nodes t).
  Hypothesis MX : mixing t W.
  Notation nodes := (t_nodes t).
  Notation ip := (ip nodes n).
  Notation seq_ := (seq_ nodes n).
  (** (I - W)/2 *)
  Definition Ah (X : stk) : stk := row_of t (half_minus W) X.
  Definition Wm (X : stk) : stk := row_of t W X.

  Lemma row_add M X Y i : row_of t M (sadd X Y) i = vadd (row_of t M X i) (row_of t M Y i).
  Proof.
    apply functional_extensionality. intro c. unfold row_of, vadd, sadd. rewrite <- rsum_map_add. apply rsum_map_ext. intros. unfold vadd. lra.
  Qed.
  Lemma row_sub M X Y i : row_of t M (ssub X Y) i = vsub (row_of t M X i) (row_of t M Y i).
  Proof.
    apply functional_extensionality. intro c. unfold row_of, vsub, ssub. rewrite <- rsum_map_sub. apply rsum_map_ext. intros. unfold vsub. lra.
  Qed.
  Lemma row_scal M a X i : row_of t M (sscal a X) i = vscal a (row_of t M X i).
  Proof.
    apply functional_extensionality. intro c. unfold row_of, vscal, sscal. rewrite <- rsum_map_scal. apply rsum_map_ext. intros. unfold vscal. lra.
  Qed.
  Lemma Ah_add X Y : Ah (sadd X Y) = sadd (Ah X) (Ah Y).
  Proof. apply functional_extensionality. intro. apply row_add. Qed.
  Lemma Ah_sub X Y : Ah (ssub X Y) = ssub (Ah X) (Ah Y).
  Proof. apply functional_extensionality. intro. apply row_sub. Qed.
  Lemma Ah_scal a X : Ah (sscal a X) = sscal a (Ah X).
  Proof. apply functional_extensionality. intro. apply row_scal. Qed.
  Lemma row_ext M X Y : seq_ X Y -> seq_ (row_of t M X) (row_of t M Y).
  Proof. intros H i I c C. unfold row_of. apply rsum_map_ext. intros j J. now rewrite (H j J c C). Qed.
  Lemma Ah_ext X Y : seq_ X Y -> seq_ (Ah X) (Ah Y).
  Proof. apply row_ext. Qed.

  Lemma row_ident X i : In i nodes -> row_of t ident X i = X i.
  Proof.
    intro I. apply functional_extensionality. intro c. unfold row_of. clear MX. revert I. induction ND as [|a l NI N IH]; intros []; cbn [map]; rewrite rsum_cons.
    - subst a. unfold ident at 1. rewrite Nat.eqb_refl.
      rewrite (rsum_map_ext (fun j => ident i j * X j c) (fun j => 0 * X j c)).
      + rewrite rsum_map_scal. lra.
      + intros j J. unfold ident. destruct (Nat.eqb_spec i j); [subst; contradiction|lra].
    - rewrite IH by auto. unfold ident. destruct (Nat.eqb_spec i a); [subst; contradiction|lra].
  Qed.
  Lemma Ah_W X i : In i nodes -> Ah X i = vscal (1/2) (vsub (X i) (Wm X i)).
  Proof.
    intro I. apply functional_extensionality. intro c. pose proof (f_equal (fun v => v c) (row_ident X i I)) as E. cbv beta in E.
    unfold Ah, Wm, vscal, vsub. rewrite <- E. unfold row_of. rewrite <- rsum_map_sub, <- rsum_map_scal. apply rsum_map_ext. intros j _. unfold half_minus. lra.
  Qed.
  Lemma half_plus_Ah X i : In i nodes -> row_of t (half_plus W) X i = vsub (X i) (Ah X i).
  Proof.
    intro I. apply functional_extensionality. intro c. pose proof (f_equal (fun v => v c) (row_ident X i I)) as E. cbv beta in E.
    unfold Ah, vsub. rewrite <- E. unfold row_of. rewrite <- rsum_map_sub. apply rsum_map_ext. intros j _. unfold half_minus, half_plus. lra.
  Qed.
  Lemma row_W_Ah X i : In i nodes -> row_of t W X i = vsub (X i) (vscal 2 (Ah X i)).
  Proof.
    intro I. rewrite Ah_W by auto. apply functional_extensionality. intro c. unfold vsub, vscal, Wm. lra.
  Qed.

  Lemma row_sym M X Y : (forall i j, M i j = M j i) -> ip (row_of t M X) Y = ip X (row_of t M Y).
  Proof.
    intro S. rewrite (ip_sym _ _ X). unfold ConvStack.ip, row_of.
    rewrite (rsum_map_ext _ (fun i => rsum (map (fun j => M i j * dot n (X j) (Y i)) nodes))) by (intros; apply dot_rsum).
    rewrite rsum_swap.
    rewrite (rsum_map_ext (fun i => dot n (fun c => rsum (map (fun j => M i j * Y j c) nodes)) (X i)) (fun i => rsum (map (fun j => M i j * dot n (Y j) (X i)) nodes))) by (intros; apply dot_rsum).
    apply rsum_map_ext. intros i _. apply rsum_map_ext. intros j _. rewrite S, dot_sym. reflexivity.
  Qed.
  Lemma hm_sym i j : half_minus W i j = half_minus W j i.
  Proof. unfold half_minus, ident. destruct MX as (S & _). rewrite (S i j), (Nat.eqb_sym i j). reflexivity. Qed.
  Lemma Ah_sym X Y : ip (Ah X) Y = ip X (Ah Y).
  Proof. apply row_sym. apply hm_sym. Qed.

  (** the energy of a stack *)
  Definition energy (s : R) (X : stk) : R :=
    rsum (map (fun i => rsum (map (fun j => W i j * nrm2 n (vadd (X i) (vscal s (X j)))) nodes)) nodes).
  Lemma ip_W X : ip X (Wm X) = rsum (map (fun i => rsum (map (fun j => W i j * dot n (X i) (X j)) nodes)) nodes).
  Proof.
    rewrite ip_sym. unfold ConvStack.ip, Wm, row_of. apply rsum_map_ext. intros i _. rewrite dot_rsum. apply rsum_map_ext. intros j _. now rewrite (dot_sym n (X j)).
  Qed.
  Lemma energy_eq s X : s * s = 1 -> energy s X = 2 * ip X X + 2 * s * ip X (Wm X).
  Proof.
    intro SS. destruct MX as (SY & _ & RS & _). rewrite ip_W. unfold energy, ConvStack.ip.
    assert (E1 : rsum (map (fun i => rsum (map (fun j => W i j * nrm2 n (X i)) nodes)) nodes) = rsum (map (fun i => dot n (X i) (X i)) nodes)).
    { apply rsum_map_ext. intros i I. rewrite rs_scal_r, RS by auto. unfold nrm2. lra. }
    assert (E2 : rsum (map (fun i => rsum (map (fun j => W i j * nrm2 n (X j)) nodes)) nodes) = rsum (map (fun i => dot n (X i) (X i)) nodes)).
    { rewrite rsum_swap. apply rsum_map_ext. intros j J. rewrite (rsum_map_ext _ (fun i => W j i * nrm2 n (X j))) by (intros; now rewrite SY).
      rewrite rs_scal_r, RS by auto. unfold nrm2. lra. }
    rewrite <- rsum_map_scal. transitivity (rsum (map (fun i => rsum (map (fun j => W i j * nrm2 n (X i)) nodes)) nodes) + rsum (map (fun i => rsum (map (fun j => W i j * nrm2 n (X j)) nodes)) nodes)
      + 2 * s * rsum (map (fun i => rsum (map (fun j => W i j * dot n (X i) (X j)) nodes)) nodes)).
    - rewrite <- (rsum_map_scal _ (2 * s)), <- !rsum_map_add. apply rsum_map_ext. intros i _. rewrite <- (rsum_map_scal _ (2 * s)), <- !rsum_map_add. apply rsum_map_ext. intros j _.
      rewrite nrm2_add, nrm2_scal, dot_scal_r, SS. lra.
    - rewrite E1, E2, rsum_map_scal. lra.
  Qed.
  Lemma ip_Ah X : ip X (Ah X) = 1/2 * (ip X X - ip X (Wm X)).
  Proof.
    rewrite (ip_ext nodes n X X (Ah X) (sscal (1/2) (ssub X (Wm X)))).
    - rewrite ip_scal_r, ip_sub_r. reflexivity.
    - intros i I c C. reflexivity.
    - intros i I c C. rewrite Ah_W by auto. reflexivity.
  Qed.
  Lemma energy_pos s X : 0 <= energy s X.
  Proof.
    destruct MX as (_ & NN & _). apply rs_nonneg. intros i _. apply rs_nonneg. intros j _. apply Rmult_le_pos; [apply NN|apply nrm2_nonneg].
  Qed.
  Lemma Ah_energy X : ip X (Ah X) = / 4 * energy (-1) X.
  Proof. rewrite energy_eq, ip_Ah by lra. lra. Qed.
  Lemma Ah_psd X : 0 <= ip X (Ah X).
  Proof. rewrite Ah_energy. pose proof (energy_pos (-1) X). lra. Qed.
  Lemma Ah_le X : ip X (Ah X) <= ip X X.
  Proof. rewrite ip_Ah. pose proof (energy_pos 1 X) as H. rewrite energy_eq in H by lra. lra. Qed.
  (** A^2 <= A *)
  Lemma Ah_sq X : ip (Ah X) (Ah X) <= ip X (Ah X).
  Proof.
    pose proof (Ah_psd (ssub X (Ah X))) as H. rewrite Ah_sub, ip_sub_l, !ip_sub_r in H.
    pose proof (Ah_le (Ah X)) as H'. rewrite <- (Ah_sym X (Ah X)) in H. lra.
  Qed.
  Lemma Ah_const (v : vec) i : In i nodes -> Ah (fun _ => v) i = vzero.
  Proof.
    intro I. rewrite Ah_W by auto. apply functional_extensionality. intro c. unfold vscal, vsub, Wm, row_of, vzero.
    destruct MX as (_ & _ & RS & _). rewrite rs_scal_r, RS by auto. lra.
  Qed.
  Lemma Ah_total X c : rsum (map (fun i => Ah X i c) nodes) = 0.
  Proof.
    unfold Ah, row_of. rewrite rsum_swap. rewrite (rsum_map_ext _ (fun j => 0 * X j c)); [rewrite rsum_map_scal; lra|].
    intros j J. rewrite rs_scal_r. f_equal. pose proof (f_equal (fun v => v O) (Ah_const (fun _ => 1) j J)) as E.
    unfold Ah, row_of, vzero in E. rewrite <- E. apply rsum_map_ext. intros i _. rewrite hm_sym. lra.
  Qed.

  (** ** Gap *)
  Hypothesis CN : connected t.
  Hypothesis EDG : forall i j, In j (t_adj t i) -> In i nodes /\ In j nodes.
  Lemma edge_energy X i j : In j (t_adj t i) -> nrm2 n (vsub (X j) (X i)) <= / W i j * energy (-1) X.
  Proof.
    intro J. destruct (EDG i j J) as (I1 & I2). destruct MX as (SY & NN & _ & _ & PO). specialize (PO i j J).
    assert (H : W i j * nrm2 n (vadd (X i) (vscal (-1) (X j))) <= energy (-1) X).
    { eapply Rle_trans; [|apply (rs_in (fun i => rsum (map (fun j => W i j * nrm2 n (vadd (X i) (vscal (-1) (X j)))) nodes)) nodes i I1)].
      - apply (rs_in (fun j => W i j * nrm2 n (vadd (X i) (vscal (-1) (X j)))) nodes j I2). intros; apply Rmult_le_pos; [apply NN|apply nrm2_nonneg].
      - intros; apply rs_nonneg. intros; apply Rmult_le_pos; [apply NN|apply nrm2_nonneg]. }
    assert (E : nrm2 n (vsub (X j) (X i)) = nrm2 n (vadd (X i) (vscal (-1) (X j)))).
    { rewrite nrm2_sub, nrm2_add, nrm2_scal, dot_scal_r, (dot_sym n (X j)). lra. }
    rewrite E. apply Rmult_le_reg_l with (W i j); auto. rewrite <- Rmult_assoc, Rinv_r, Rmult_1_l by lra. exact H.
  Qed.
  Lemma walk_energy r i : walk t r i -> exists K, 0 <= K /\ forall X, nrm2 n (vsub (X i) (X r)) <= K * energy (-1) X.
  Proof.
    induction 1 as [i I|r j k H (K & K0 & IH) J].
    - exists 0. split; [lra|]. intro X. rewrite (nrm2_ext n _ vzero) by (intros; unfold vsub, vzero; lra). rewrite nrm2_zero. lra.
    - exists (2 * K + 2 * / W j k). assert (0 < W j k) by (apply MX; auto).
      assert (0 < / W j k) by now apply Rinv_0_lt_compat. split; [lra|]. intro X. specialize (IH X). pose proof (edge_energy X j k J) as E.
      rewrite (nrm2_ext n _ (vadd (vsub (X k) (X j)) (vsub (X j) (X r)))) by (intros; unfold vsub, vadd; lra).
      rewrite nrm2_add. pose proof (nrm2_nonneg n (vsub (vsub (X k) (X j)) (vsub (X j) (X r)))) as P. rewrite nrm2_sub in P. lra.
  Qed.
  (** all differences to a reference agent are bounded by the energy *)
  Lemma poincare : nodes <> [] -> exists r K, In r nodes /\ 0 < K /\ forall X, rsum (map (fun i => nrm2 n (vsub (X i) (X r))) nodes) <= K * ip X (Ah X).
  Proof.
    intro NE. assert (IR : exists r, In r nodes) by (destruct (t_nodes t) as [|r l]; [congruence|exists r; now left]). destruct IR as (r & IR).
    assert (Q : forall l', incl l' nodes -> exists K, 0 <= K /\ forall X, rsum (map (fun i => nrm2 n (vsub (X i) (X r))) l') <= K * energy (-1) X).
    { induction l' as [|i l' IH]; intro IC.
      - exists 0. split; [lra|]. intro X. cbn [map]. rewrite rsum_nil. lra.
      - destruct IH as (K & K0 & IH); [intros x Hx; apply IC; now right|]. destruct (walk_energy r i (CN r i IR (IC i (or_introl eq_refl)))) as (K' & K0' & H).
        exists (K' + K). split; [lra|]. intro X. cbn [map]. rewrite rsum_cons. specialize (H X). specialize (IH X). lra. }
    destruct (Q nodes (incl_refl _)) as (K & K0 & H). exists r, (4 * K + 1). split; auto. split; [lra|]. intro X. specialize (H X). rewrite Ah_energy. pose proof (energy_pos (-1) X). lra.
  Qed.
  (** the spectral gap: A^2 >= lam A, and A >= lam on stacks that sum to zero *)
  Lemma gap : exists lam, 0 < lam <= 1 /\ (forall X, lam * ip X (Ah X) <= ip (Ah X) (Ah X)) /\
    (forall X, (forall c, (c < n)%nat -> rsum (map (fun i => X i c) nodes) = 0) -> lam * ip X X <= ip X (Ah X)).
  Proof.
    assert (D : nodes = [] \/ nodes <> []) by (destruct (t_nodes t); [now left|right; discriminate]). destruct D as [EN|NE].
    { exists 1. split; [lra|]. unfold ConvStack.ip. rewrite EN. cbn [map]. split; intros; rewrite rsum_nil; lra. }
    destruct (poincare NE) as (r & K & IR & KP & P). set (K1 := K + 1). assert (K1P : 1 < K1) by (unfold K1; lra).
    assert (L0 : 0 < / K1) by (apply Rinv_0_lt_compat; lra). assert (L1 : / K1 <= 1) by (rewrite <- Rinv_1; apply Rinv_le_contravar; lra).
    assert (P' : forall X, / K1 * ip (ssub X (fun _ => X r)) (ssub X (fun _ => X r)) <= ip X (Ah X)).
    { intro X. apply Rmult_le_reg_l with K1; [lra|]. rewrite <- Rmult_assoc, Rinv_r, Rmult_1_l by lra. specialize (P X). pose proof (Ah_psd X).
      change (ip (ssub X (fun _ => X r)) (ssub X (fun _ => X r))) with (rsum (map (fun i => nrm2 n (vsub (X i) (X r))) nodes)). unfold K1. lra. }
    exists (/ K1). split; [lra|]. split.
    - intro X. pose proof (P' X) as PX. set (V := ssub X (fun _ => X r)) in *.
      assert (E : ip X (Ah X) = ip V (Ah X)).
      { unfold V. rewrite ip_sub_l. rewrite <- (Ah_sym (fun _ => X r) X).
        rewrite (ip_ext nodes n (Ah (fun _ => X r)) (fun _ => vzero) X X).
        - assert (Z : ip (fun _ => vzero) X = 0).
          { unfold ConvStack.ip. rewrite (rsum_map_ext _ (fun _ => 0)) by (intros; apply dot_zero_l). rewrite rs_const. lra. }
          rewrite Z. lra.
        - intros i I c C. rewrite Ah_const by auto. reflexivity.
        - intros i I c C. reflexivity. }
      pose proof (ip_young nodes n V (Ah X) (/ K1) L0) as Y. rewrite Rinv_inv in Y.
      apply Rmult_le_reg_l with K1; [lra|]. rewrite <- Rmult_assoc, Rinv_r, Rmult_1_l by lra. lra.
    - intros X Z. eapply Rle_trans; [|apply (P' X)]. apply Rmult_le_compat_l; [lra|]. rewrite ip_sub_l, !ip_sub_r.
      assert (E : ip X (fun _ => X r) = 0).
      { rewrite ip_sym. unfold ConvStack.ip. rewrite (rsum_map_ext _ (fun i => 1 * dot n (X i) (X r))) by (intros; rewrite dot_sym; lra).
        rewrite <- (dot_rsum n X (fun _ => 1) nodes (X r)). rewrite (dot_ext n _ vzero (X r) (X r)); [apply dot_zero_l| |auto].
        intros c C. rewrite rsum_map_scal. rewrite Z by auto. unfold vzero. lra. }
      rewrite (ip_sym _ _ (fun _ => X r) X), E. pose proof (ip_pos nodes n (fun _ => X r)). lra.
  Qed.
End Mix.
