From Coq Require Import List Bool Arith ZArith QArith Qround Permutation Sorted Lia Lqa.
From Verif.Model Require Import PyDict Schemes.
From Verif.Spec Require Import SchemesSpec.
From Verif.Proofs Require Import PyDictProofs SortProofs.
Import ListNotations.
Open Scope nat_scope.

Lemma Qltb_spec a b : Qltb a b = true <-> (a < b)%Q.
Proof.
  unfold Qltb. rewrite negb_true_iff. split; intro H.
  - apply Qnot_le_lt. intro L. apply Qle_bool_iff in L. congruence.
  - destruct (Qle_bool b a) eqn:E; auto. apply Qle_bool_iff in E. lra.
Qed.
Lemma Qltb_false a b : Qltb a b = false <-> (b <= a)%Q.
Proof.
  rewrite <- Qle_bool_iff. unfold Qltb. destruct (Qle_bool b a); simpl; split; congruence.
Qed.
Lemma prob_ok_spec p : prob_ok p = true <-> (0 <= p /\ p <= 1)%Q.
Proof.
  unfold prob_ok. rewrite negb_true_iff, orb_false_iff, !Qltb_false. tauto.
Qed.

(** ** cyclic *)
Lemma cyclic_init_inv a i o c : cyclic_init a i o = Some c ->
  (0 <= a)%Z /\ (0 <= match i with None => a | Some j => j end)%Z /\ (0 <= o)%Z /\ (0 < a + match i with None => a | Some j => j end)%Z /\
  c = mkCyclic a (match i with None => a | Some j => j end) o.
Proof.
  unfold cyclic_init. set (j := match i with None => a | Some j => j end).
  destruct (Z.ltb_spec a 0); simpl; [discriminate|]. destruct (Z.ltb_spec j 0); simpl; [discriminate|].
  destruct (Z.ltb_spec o 0); simpl; [discriminate|].
  destruct (Z.eqb_spec a 0); simpl; [destruct (Z.eqb_spec j 0); simpl; [discriminate|]|]; intros [= <-]; repeat split; lia.
Qed.

Section Cyc.
  Variables (a i o : Z).
  Hypotheses (Ha : (0 <= a)%Z) (Hi : (0 <= i)%Z) (Ho : (0 <= o)%Z) (Hp : (0 < a + i)%Z).
  Notation c := (mkCyclic a i o).
  Notation P := (a + i)%Z.
  Lemma cyc_val k : (0 <= k)%Z -> cyclic_active c k = Some ((k + o) mod P <? a)%Z.
  Proof. intro H. unfold cyclic_active. destruct (Z.ltb_spec k 0); [lia|]. reflexivity. Qed.
  Lemma cyc_period k : (0 <= k)%Z -> cyclic_active c (k + P) = cyclic_active c k.
  Proof.
    intro H. rewrite !cyc_val by lia. replace (k + P + o)%Z with (k + o + 1 * P)%Z by lia.
    now rewrite Z.mod_add by lia.
  Qed.
  Lemma count_app f k m n : count_active f k (m + n) = count_active f k m + count_active f (k + Z.of_nat m)%Z n.
  Proof.
    revert k. induction m as [|m IH]; intro k; cbn [count_active Nat.add]; [f_equal; lia|].
    rewrite IH. replace (k + 1 + Z.of_nat m)%Z with (k + Z.of_nat (S m))%Z by lia. lia.
  Qed.
  Lemma count_shift k : (0 <= k)%Z ->
    count_active (cyclic_active c) (k + 1) (Z.to_nat P) = count_active (cyclic_active c) k (Z.to_nat P).
  Proof.
    intro H. pose proof (count_app (cyclic_active c) k 1 (Z.to_nat P)) as E1.
    pose proof (count_app (cyclic_active c) k (Z.to_nat P) 1) as E2.
    rewrite Nat.add_comm in E1. rewrite E1 in E2. cbn [count_active] in E2.
    rewrite Z2Nat.id in E2 by lia. rewrite cyc_period in E2 by lia.
    change (Z.of_nat 1) with 1%Z in E2. lia.
  Qed.
  Lemma count_const len k b : (0 <= k)%Z -> (forall j, (k <= j < k + Z.of_nat len)%Z -> cyclic_active c j = Some b) ->
    count_active (cyclic_active c) k len = if b then len else 0.
  Proof.
    revert k. induction len as [|m IH]; intros k Hk H; cbn [count_active]; [destruct b; auto|].
    rewrite (H k) by lia. rewrite IH; [destruct b; lia|lia|]. intros j Hj. apply H. lia.
  Qed.
  Lemma count_aligned k : (0 <= k)%Z -> ((k + o) mod P = 0)%Z ->
    count_active (cyclic_active c) k (Z.to_nat P) = Z.to_nat a.
  Proof.
    intros Hk A. replace (Z.to_nat P) with (Z.to_nat a + Z.to_nat i) by lia. rewrite count_app.
    assert (M : forall j, (k <= j < k + P)%Z -> ((j + o) mod P = j - k)%Z).
    { intros j Hj. apply Z.mod_divide in A; [|lia]. destruct A as (q & A).
      replace (j + o)%Z with (j - k + q * P)%Z by lia. rewrite Z.mod_add by lia. apply Z.mod_small. lia. }
    rewrite (count_const _ k true), (count_const _ _ false); try lia.
    - intros j Hj. rewrite cyc_val by lia. rewrite M by lia. f_equal. apply Z.ltb_ge. lia.
    - intros j Hj. rewrite cyc_val by lia. rewrite M by lia. f_equal. apply Z.ltb_lt. lia.
  Qed.
  Lemma count_all k : (0 <= k)%Z -> count_active (cyclic_active c) k (Z.to_nat P) = Z.to_nat a.
  Proof.
    intro Hk. set (d := ((- (k + o)) mod P)%Z).
    assert (D : (0 <= d < P)%Z) by (apply Z.mod_pos_bound; lia).
    assert (S : forall m, count_active (cyclic_active c) (k + Z.of_nat m) (Z.to_nat P) = count_active (cyclic_active c) k (Z.to_nat P)).
    { induction m as [|m IH]; [now rewrite Z.add_0_r|]. rewrite <- IH.
      replace (k + Z.of_nat (S m))%Z with (k + Z.of_nat m + 1)%Z by lia. apply count_shift. lia. }
    rewrite <- (S (Z.to_nat d)). apply count_aligned; [lia|]. rewrite Z2Nat.id by lia.
    replace (k + d + o)%Z with (k + o + d)%Z by lia. unfold d. rewrite Zplus_mod_idemp_r. rewrite Z.add_opp_diag_r. apply Z.mod_0_l. lia.
  Qed.
  (** a rising edge is at phase 0 *)
  Lemma rise k : (0 <= k)%Z -> cyclic_active c k = Some false -> cyclic_active c (k + 1) = Some true ->
    (forall j, (1 <= j <= a)%Z -> cyclic_active c (k + j) = Some true) /\
    (forall j, (a < j <= P)%Z -> cyclic_active c (k + j) = Some false).
  Proof.
    intros Hk F T. rewrite cyc_val in F, T by lia.
    assert (F' : (a <= (k + o) mod P)%Z) by (apply Z.ltb_ge; congruence).
    assert (T' : ((k + 1 + o) mod P < a)%Z) by (apply Z.ltb_lt; congruence).
    assert (M : ((k + 1 + o) mod P = 0)%Z).
    { pose proof (Z.mod_pos_bound (k + o) P Hp) as B.
      destruct (Z.eq_dec ((k + o) mod P) (P - 1)) as [E|E].
      - replace (k + 1 + o)%Z with (k + o + 1)%Z by lia. rewrite <- Zplus_mod_idemp_l, E.
        replace (P - 1 + 1)%Z with P by lia. apply Z.mod_same. lia.
      - exfalso. replace (k + 1 + o)%Z with (k + o + 1)%Z in T' by lia. rewrite <- Zplus_mod_idemp_l in T'.
        rewrite Z.mod_small in T' by lia. lia. }
    apply Z.mod_divide in M; [|lia]. destruct M as (q & M).
    assert (V : forall j, (1 <= j <= P)%Z -> ((k + j + o) mod P = j - 1)%Z).
    { intros j Hj. replace (k + j + o)%Z with (j - 1 + q * P)%Z by lia. rewrite Z.mod_add by lia. apply Z.mod_small. lia. }
    split; intros j Hj; rewrite cyc_val by lia; rewrite V by lia; f_equal; [apply Z.ltb_lt|apply Z.ltb_ge]; lia.
  Qed.
End Cyc.

(** ** Poisson *)
Lemma sum_to_mono d j : sum_to d j + S j <= sum_to d (S j) + S j.
Proof. simpl. lia. Qed.
Lemma sum_lt d i j : i < j -> i + sum_to d i < j + sum_to d j.
Proof. intro H. induction H; simpl; lia. Qed.

Lemma poisson_at d : forall n c m t0,
  t0 + c = m + sum_to d m ->
  forall t, t < n ->
  (nth t (poisson_run d (c, S m) n) false = true <-> exists j, m <= j /\ t0 + t = j + sum_to d j).
Proof.
  induction n as [|n IH]; intros c m t0 E t Ht; [lia|].
  cbn [poisson_run poisson_active]. destruct (Nat.eqb_spec c 0).
  - subst c. destruct t as [|t]; cbn [nth].
    + split; [intros _; exists m; lia|auto].
    + rewrite (IH (d (S m)) (S m) (S t0)) by (simpl; lia). split; intros (j & L & E2); exists j; split; try lia.
      destruct (Nat.eq_dec j m); [subst; lia|lia].
  - destruct t as [|t]; cbn [nth].
    + split; [discriminate|]. intros (j & L & E2). exfalso. destruct (Nat.eq_dec j m); [subst; lia|].
      pose proof (sum_lt d m j). lia.
    + rewrite (IH (c - 1) m (S t0)) by lia. split; intros (j & L & E2); exists j; split; lia.
Qed.

(** ** selection *)
Lemma resolve_wanted sz n : valid_size sz -> wanted sz n (resolve sz n).
Proof.
  destruct sz as [m|f]; cbn [resolve valid_size]; [intros _; constructor|]. intros (P & L).
  set (x := (f * inject_Z (Z.of_nat n))%Q).
  assert (X : (0 <= x)%Q). { unfold x. apply Qmult_le_0_compat; [lra|]. unfold Qle, inject_Z; simpl. lia. }
  assert (F : (0 <= Qfloor x)%Z).
  { change 0%Z with (Qfloor 0). apply Qfloor_resp_le. exact X. }
  constructor; fold x.
  - rewrite Z2Nat.id by exact F. apply Qfloor_le.
  - rewrite Nat2Z.inj_succ, Z2Nat.id by exact F. apply Qlt_floor.
Qed.
Lemma resolve_le sz n : resolve sz n <= n.
Proof. destruct sz; cbn [resolve]; lia. Qed.
Lemma resolve_pos sz n : valid_size sz -> 0 < n -> 0 < resolve sz n.
Proof. destruct sz; cbn [resolve valid_size]; intros; lia. Qed.

Lemma pick_spec (pool : list nat) d0 order k : NoDup pool -> Permutation order (seq 0 (length pool)) -> k <= length pool ->
  let s := map (fun i => nth i pool d0) (firstn k order) in
  NoDup s /\ incl s pool /\ length s = k.
Proof.
  intros ND P Hk s. assert (L : length order = length pool) by (rewrite (Permutation_length P); apply seq_length).
  assert (R : forall i, In i (firstn k order) -> i < length pool).
  { intros i Hi. apply in_firstn in Hi. apply (Permutation_in _ P) in Hi. apply in_seq in Hi. lia. }
  assert (NO : NoDup (firstn k order)).
  { apply NoDup_firstn. apply (Permutation_NoDup (Permutation_sym P)). apply seq_NoDup. }
  split; [|split].
  - unfold s. revert R NO. induction (firstn k order) as [|i l IH]; simpl; intros R NO; constructor.
    + intro H. apply in_map_iff in H. destruct H as (j & E & Hj).
      inversion NO; subst. apply H1. assert (j = i); [|now subst].
      apply (proj1 (NoDup_nth pool d0) ND); auto.
    + inversion NO; subst. apply IH; auto.
  - intros x Hx. unfold s in Hx. apply in_map_iff in Hx. destruct Hx as (i & <- & Hi). apply nth_In. auto.
  - unfold s. rewrite map_length, firstn_length. lia.
Qed.

Lemma lookup_bump sel : forall counts c, NoDup sel ->
  lookup (bump counts sel) c = lookup counts c + if existsb (Nat.eqb c) sel then 1 else 0.
Proof.
  induction sel as [|s t IH]; intros counts c ND; simpl; [lia|]. inversion ND; subst.
  unfold bump in *. simpl. rewrite IH by auto.
  unfold lookup at 1. rewrite (dget_dset _ _ _ Nat.eqb_spec). destruct (Nat.eqb_spec c s); simpl.
  - subst c. replace (existsb (Nat.eqb s) t) with false; [lia|]. symmetry. apply not_true_iff_false. intro H.
    apply existsb_exists in H. destruct H as (y & I & E). apply Nat.eqb_eq in E. now subst.
  - fold (lookup counts c). reflexivity.
Qed.

Section Fair.
  Variables (counts : list (nat * nat)) (pool : list nat).
  Notation c := (lookup counts).
  Definition fle a b := c a <=? c b.
  Lemma fle_total a b : fle a b = true \/ fle b a = true.
  Proof. unfold fle. rewrite !Nat.leb_le. lia. Qed.
  Lemma fle_trans a b d : fle a b = true -> fle b d = true -> fle a d = true.
  Proof. unfold fle. rewrite !Nat.leb_le. lia. Qed.
  Lemma fair_split k a b : In a (firstn k (sorted fle pool)) -> In b (skipn k (sorted fle pool)) ->
    c a < c b \/ (c a = c b /\ before pool a b).
  Proof.
    intros Ha Hb. pose proof (ss_split k _ a b (sorted_ranked fle fle_total fle_trans pool) Ha Hb) as (P & Q).
    unfold fle in P, Q. apply Nat.leb_le in P. destruct Q as [Q|Q].
    - apply Nat.leb_gt in Q. auto.
    - destruct (Nat.eq_dec (c a) (c b)); [right; auto|left; lia].
  Qed.
End Fair.

Lemma total_perm c l l' : Permutation l l' -> total_count c l = total_count c l'.
Proof. unfold total_count. induction 1; simpl; lia. Qed.
Lemma total_app c l l' : total_count c (l ++ l') = total_count c l + total_count c l'.
Proof. unfold total_count. rewrite map_app, list_sum_app. auto. Qed.
Lemma partition_perm {A} (f : A -> bool) l : Permutation l (filter f l ++ filter (fun x => negb (f x)) l).
Proof.
  induction l as [|x l IH]; simpl; auto. destruct (f x); simpl; [now constructor|].
  rewrite IH at 1. apply Permutation_middle.
Qed.
Lemma total_bound c t l : (forall x, In x l -> c x <= t) -> total_count c l <= t * length l.
Proof. unfold total_count. induction l as [|x l IH]; simpl; intro H; [lia|]. pose proof (H x (or_introl eq_refl)). rewrite Nat.mul_succ_r. specialize (IH (fun y h => H y (or_intror h))). lia. Qed.
Lemma total_bound2 c t l : (forall x, In x l -> t <= c x) -> t * length l <= total_count c l.
Proof. unfold total_count. induction l as [|x l IH]; simpl; intro H; [lia|]. pose proof (H x (or_introl eq_refl)). rewrite Nat.mul_succ_r. specialize (IH (fun y h => H y (or_intror h))). lia. Qed.

Definition inb (l : list nat) (x : nat) := existsb (Nat.eqb x) l.
Lemma inb_spec l x : inb l x = true <-> In x l.
Proof. unfold inb. rewrite existsb_exists. split; [intros (y & I & E); apply Nat.eqb_eq in E; now subst|]. intro I. exists x. split; auto. apply Nat.eqb_refl. Qed.

(** exchange argument *)
Lemma exchange c t (sel other : list nat) : NoDup sel -> NoDup other -> length sel = length other ->
  (forall x, In x sel -> c x <= t) -> (forall x, In x other -> ~ In x sel -> t <= c x) ->
  total_count c sel <= total_count c other.
Proof.
  intros N1 N2 L H1 H2.
  pose proof (partition_perm (inb other) sel) as P1. pose proof (partition_perm (inb sel) other) as P2.
  assert (PI : Permutation (filter (inb other) sel) (filter (inb sel) other)).
  { apply NoDup_Permutation; try now apply NoDup_filter. intro x. rewrite !filter_In, !inb_spec. tauto. }
  rewrite (total_perm c _ _ P1), (total_perm c _ _ P2), !total_app, (total_perm c _ _ PI).
  assert (B1 : total_count c (filter (fun x => negb (inb other x)) sel) <= t * length (filter (fun x => negb (inb other x)) sel)).
  { apply total_bound. intros x Hx. apply filter_In in Hx. apply H1. tauto. }
  assert (B2 : t * length (filter (fun x => negb (inb sel x)) other) <= total_count c (filter (fun x => negb (inb sel x)) other)).
  { apply total_bound2. intros x Hx. apply filter_In in Hx. destruct Hx as (Hx & E). apply H2; auto.
    intro I. apply inb_spec in I. rewrite I in E. discriminate. }
  assert (LE : length (filter (fun x => negb (inb other x)) sel) = length (filter (fun x => negb (inb sel x)) other)).
  { pose proof (Permutation_length P1) as A1. pose proof (Permutation_length P2) as A2. pose proof (Permutation_length PI) as A3.
    rewrite app_length in A1, A2. lia. }
  rewrite LE in B1. lia.
Qed.
Lemma max_exists (c : nat -> nat) l : l <> [] -> exists x, In x l /\ forall y, In y l -> c y <= c x.
Proof.
  induction l as [|x l IH]; [congruence|]. intros _. destruct l as [|y l].
  - exists x. split; [left; auto|]. intros y [<-|[]]; auto.
  - destruct IH as (z & I & M); [discriminate|]. destruct (Nat.le_ge_cases (c x) (c z)).
    + exists z. split; [right; auto|]. intros w [<-|Hw]; auto.
    + exists x. split; [left; auto|]. intros w [<-|Hw]; auto. specialize (M w Hw). lia.
Qed.

(** ** high loss *)
Section High.
  Variables (loss : nat -> Q) (ties : list nat).
  Lemma rank_spec i j : rank_le loss ties i j = true <-> (loss j < loss i)%Q \/ (loss i == loss j)%Q /\ nth i ties 0 <= nth j ties 0.
  Proof.
    unfold rank_le. rewrite orb_true_iff, andb_true_iff, Qltb_spec, Qeq_bool_iff, Nat.leb_le.
    assert (E1 : (- loss i < - loss j)%Q <-> (loss j < loss i)%Q) by (split; intro; lra).
    assert (E2 : (- loss i == - loss j)%Q <-> (loss i == loss j)%Q) by (split; intro; lra).
    rewrite E1, E2. tauto.
  Qed.
  Lemma rank_total i j : rank_le loss ties i j = true \/ rank_le loss ties j i = true.
  Proof.
    rewrite !rank_spec. destruct (Q_dec (loss i) (loss j)) as [[H|H]|H]; auto.
    destruct (Nat.le_ge_cases (nth i ties 0) (nth j ties 0)); [left|right]; right; split; auto. now symmetry.
  Qed.
  Lemma rank_trans i j k : rank_le loss ties i j = true -> rank_le loss ties j k = true -> rank_le loss ties i k = true.
  Proof.
    rewrite !rank_spec. intros [A|(A & A')] [B|(B & B')].
    - left. lra.
    - left. lra.
    - left. lra.
    - right. split; [lra|lia].
  Qed.
End High.
