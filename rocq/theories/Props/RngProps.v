(** C41 and C48: seeds and random number generator snapshots. *)
From Coq Require Import List Bool Arith ZArith Lia.
From Verif.Model Require Import PyDict Rng.
From Verif.Spec Require Import RngSpec.
From Verif.Proofs Require Import RngProofs.
Import ListNotations.

(** C48: after restoring a snapshot, in any state [s'] of any process with the
    same packages, every sequence of requests is answered as it would have been
    after the capture, by Python's and NumPy's generators always and by those of
    the captured frameworks. *)
Theorem C48_restore_reproduces_draws : forall (G V : Type) (next : source -> nat -> G -> V * G) seeded ti td e fw s s',
  ready e s ->
  same_draws next seeded ti td e
    (fun src => match framework_of src with None | Some NumPy => True | Some f => chosen fw f end)
    (set_state e (get_state e fw s) s') s.
Proof.
  intros G V next seeded ti td e fw s s' (RT & RJ) l i src r E C.
  pose proof (draws_agree next seeded ti td e true (selected fw PyTorch) (selected fw TensorFlow) (selected fw JAX) l (set_state e (get_state e fw s) s') s) as H.
  destruct H as (_ & H).
  - unfold set_state, get_state, agree. cbn. split; [auto|]. split; [auto|]. split; [|split].
    + intros -> ->. cbn. repeat split; auto. intros ->. reflexivity.
    + intros HT HS. rewrite HT, HS. cbn. destruct (g_tf s) eqn:F; auto. exfalso. now apply RT.
    + intros HT HS. rewrite HT, HS. cbn. destruct (g_jax s) eqn:F; auto. exfalso. now apply RJ.
  - apply (H i src r E). destruct src; cbn in *; auto; now apply selected_In.
Qed.
(** ... and the generators of frameworks not captured are left alone; capturing
    changes nothing ([get_state] returns no state). *)
Theorem C48_restore_frame : forall (G : Type) e fw (s s' : rng G),
  let s1 := set_state e (get_state e fw s) s' in
  (~ chosen fw PyTorch -> g_torch s1 = g_torch s' /\ g_cuda s1 = g_cuda s' /\ g_tgens s1 = g_tgens s') /\
  (~ chosen fw TensorFlow -> g_tf s1 = g_tf s') /\ (~ chosen fw JAX -> g_jax s1 = g_jax s') /\
  g_seed s1 = g_seed s.
Proof.
  intros G e fw s s' s1. assert (N : forall f, ~ chosen fw f -> selected fw f = false).
  { intros f H. destruct (selected fw f) eqn:E; auto. apply selected_In in E. contradiction. }
  split; [|split; [|split; [|reflexivity]]]; intro H; apply N in H; unfold s1, set_state, get_state; cbn; rewrite H, ?andb_false_r; cbn.
  - destruct (has_torch e); cbn; rewrite ?andb_false_r; repeat split; auto; destruct (has_cuda e); auto.
  - destruct (has_tf e); auto.
  - destruct (has_jax e); auto.
Qed.
(** ... every state a process goes through is [ready]. *)
Theorem C48_ready_invariant : forall (G V : Type) (next : source -> nat -> G -> V * G) seeded ti td e (s : rng G), ready e s ->
  (forall src r, ready e (snd (draw next seeded ti td e src r s))) /\ (forall z fw b, ready e (set_seed seeded e z fw b s)) /\ (forall p, ready e (set_state e p s)).
Proof.
  intros G V next seeded ti td e s (RT & RJ). split; [|split].
  - intros src r. unfold ready. destruct src; cbn; auto.
    + destruct (has_torch e); cbn; auto.
    + destruct (has_torch e), (has_cuda e); cbn; auto.
    + destruct (has_torch e); cbn; auto.
    + destruct (has_tf e) eqn:E; cbn; [|split; [discriminate|auto]]. destruct (g_tf s) eqn:F; cbn; [split; [intros _ X; discriminate X|auto]|]. rewrite F. auto.
    + destruct (has_jax e) eqn:E; cbn; [|split; [auto|discriminate]]. destruct (g_jax s) eqn:F; cbn; [split; [auto|intros _ X; discriminate X]|]. rewrite F. auto.
  - intros z fw b. split; intro H; cbn; rewrite H; cbn; [destruct (selected fw TensorFlow)|destruct (selected fw JAX)]; auto; intro X; discriminate X.
  - intro p. split; intro H; cbn; rewrite H; [destruct (s_tf _ p)|destruct (s_jax _ p)]; auto; intro X; discriminate X.
Qed.

(** C41: the seed of a trial depends only on the base seed and the two indices
    (it is a function of them), fits in 32 bits, and differs between any two of
    2^32 trials of an algorithm, between any two of 2^32 algorithms for a trial,
    and between any two (algorithm, trial) pairs of a benchmark with at most 6685
    algorithms and 578554 trials. *)
Theorem C41_seed_range : forall base a t, (0 <= trial_seed base a t < 2 ^ 32)%Z.
Proof. intros. apply Z.mod_pos_bound. reflexivity. Qed.
Definition P : Z := 0x9E3779B9. Definition Q : Z := 0x85EBCA6B.
Definition Q' : Z := 0xA5CB9243. Definition P' : Z := 0x144CBC89.
Lemma seed_eq base a t a' t' : trial_seed base a t = trial_seed base a' t' ->
  ((P * (Z.of_nat a - Z.of_nat a') + Q * (Z.of_nat t - Z.of_nat t')) mod 2 ^ 32 = 0)%Z.
Proof.
  unfold trial_seed. fold P Q. intro H. set (x := (base + P * (Z.of_nat a + 1) + Q * (Z.of_nat t + 1))%Z) in *. set (y := (base + P * (Z.of_nat a' + 1) + Q * (Z.of_nat t' + 1))%Z) in *.
  replace (P * (Z.of_nat a - Z.of_nat a') + Q * (Z.of_nat t - Z.of_nat t'))%Z with (x - y)%Z by (unfold x, y; ring).
  rewrite Zminus_mod, H, Z.sub_diag. reflexivity.
Qed.

Theorem C41_trials_distinct : forall base a t t', (Z.of_nat t < 2 ^ 32)%Z -> (Z.of_nat t' < 2 ^ 32)%Z ->
  trial_seed base a t = trial_seed base a t' -> t = t'.
Proof.
  intros base a t t' B B' H. apply seed_eq in H. rewrite Z.sub_diag, Z.mul_0_r, Z.add_0_l in H.
  set (d := (Z.of_nat t - Z.of_nat t')%Z) in *.
  assert (D : (d mod 2 ^ 32 = 0)%Z).
  { replace d with ((Q' * (Q * d) + d * (1 - Q' * Q))%Z) by ring. rewrite Zplus_mod, Zmult_mod, H, Z.mul_0_r, Zmult_mod. change ((1 - Q' * Q) mod 2 ^ 32)%Z with 0%Z. rewrite Z.mul_0_r. reflexivity. }
  apply Z.mod_divide in D; [|discriminate]. destruct D as (q & D). assert (q = 0)%Z by (unfold d in D; change (2 ^ 32)%Z with 4294967296%Z in *; clear - B B' D; lia). subst q. unfold d in D. lia.
Qed.
Theorem C41_algorithms_distinct : forall base a a' t, (Z.of_nat a < 2 ^ 32)%Z -> (Z.of_nat a' < 2 ^ 32)%Z ->
  trial_seed base a t = trial_seed base a' t -> a = a'.
Proof.
  intros base a a' t B B' H. apply seed_eq in H. rewrite Z.sub_diag, Z.mul_0_r, Z.add_0_r in H.
  set (d := (Z.of_nat a - Z.of_nat a')%Z) in *.
  assert (D : (d mod 2 ^ 32 = 0)%Z).
  { replace d with ((P' * (P * d) + d * (1 - P' * P))%Z) by ring. rewrite Zplus_mod, Zmult_mod, H, Z.mul_0_r, Zmult_mod. change ((1 - P' * P) mod 2 ^ 32)%Z with 0%Z. rewrite Z.mul_0_r. reflexivity. }
  apply Z.mod_divide in D; [|discriminate]. destruct D as (q & D). assert (q = 0)%Z by (unfold d in D; change (2 ^ 32)%Z with 4294967296%Z in *; clear - B B' D; lia). subst q. unfold d in D. lia.
Qed.
(** no small multiple of the quotient of the two constants is close to 0 *)
Definition far (n : nat) : bool := (let r := (Q' * P * Z.of_nat n) mod 2 ^ 32 in (578554 <=? r) && (r <=? 2 ^ 32 - 578554))%Z.
Lemma far_all : forallb far (seq 1 (Z.to_nat 6684)) = true. Proof. vm_compute. reflexivity. Qed.
Lemma pair_distinct d k : (0 < d < 6685)%Z -> (Z.abs k < 578554)%Z -> ((P * d + Q * k) mod 2 ^ 32)%Z <> 0%Z.
Proof.
  intros D K H. assert (F : far (Z.to_nat d) = true). { pose proof far_all as F. rewrite forallb_forall in F. apply F. apply in_seq. lia. }
  unfold far in F. rewrite Z2Nat.id in F by lia. apply andb_true_iff in F. destruct F as (F1 & F2). apply Z.leb_le in F1, F2.
  assert (E : ((Q' * P * d + k) mod 2 ^ 32 = 0)%Z).
  { replace (Q' * P * d + k)%Z with (Q' * (P * d + Q * k) + k * (1 - Q' * Q))%Z by ring. rewrite Zplus_mod, Zmult_mod, H, Z.mul_0_r, Zmult_mod. change ((1 - Q' * Q) mod 2 ^ 32)%Z with 0%Z. rewrite Z.mul_0_r. reflexivity. }
  pose proof (Z.div_mod (Q' * P * d) (2 ^ 32) ltac:(discriminate)) as DM. set (r := ((Q' * P * d) mod 2 ^ 32)%Z) in *. set (q := ((Q' * P * d) / 2 ^ 32)%Z) in *.
  rewrite DM in E. replace (2 ^ 32 * q + r + k)%Z with (r + k + q * 2 ^ 32)%Z in E by ring. rewrite Z_mod_plus_full in E.
  rewrite Z.mod_small in E by (change (2 ^ 32)%Z with 4294967296%Z in *; lia). lia.
Qed.
Theorem C41_pairs_distinct : forall base a t a' t', (Z.of_nat a < 6685)%Z -> (Z.of_nat a' < 6685)%Z -> (Z.of_nat t < 578554)%Z -> (Z.of_nat t' < 578554)%Z ->
  trial_seed base a t = trial_seed base a' t' -> a = a' /\ t = t'.
Proof.
  intros base a t a' t' HA HA' HT HT' H.
  assert (X : a = a').
  { apply seed_eq in H. destruct (Nat.lt_trichotomy a a') as [L|[L|L]]; [|exact L|]; exfalso.
    - apply (pair_distinct (Z.of_nat a' - Z.of_nat a) (Z.of_nat t' - Z.of_nat t)); [lia|lia|].
      replace (P * (Z.of_nat a' - Z.of_nat a) + Q * (Z.of_nat t' - Z.of_nat t))%Z with (- (P * (Z.of_nat a - Z.of_nat a') + Q * (Z.of_nat t - Z.of_nat t')))%Z by ring.
      apply Z.mod_opp_l_z; [discriminate|exact H].
    - apply (pair_distinct (Z.of_nat a - Z.of_nat a') (Z.of_nat t - Z.of_nat t')); [lia|lia|exact H]. }
  split; [exact X|]. subst a'. apply (C41_trials_distinct base a); auto; change (2 ^ 32)%Z with 4294967296%Z; lia.
Qed.
(** The bounds are needed. *)
Theorem C41_bounds_tight : forall base, trial_seed base (Z.to_nat 6685) (Z.to_nat 101601) = trial_seed base 0 0.
Proof.
  intro base. unfold trial_seed.
  replace (base + 0x9E3779B9 * (Z.of_nat (Z.to_nat 6685) + 1) + 0x85EBCA6B * (Z.of_nat (Z.to_nat 101601) + 1))%Z with (base + 0x9E3779B9 * (Z.of_nat 0 + 1) + 0x85EBCA6B * (Z.of_nat 0 + 1) + 57282 * 2 ^ 32)%Z by lia.
  apply Z_mod_plus_full.
Qed.

(** C41: seeding a trial makes every later draw from Python's generator and from
    the generators of the frameworks seeded a function of the seed, whatever was
    drawn before (in processes that agree on whether a global seed was set). *)
Theorem C41_seeded_draws_partial : forall (G V : Type) (next : source -> nat -> G -> V * G) seeded ti td e fw z s s',
  (g_seed s = None <-> g_seed s' = None) ->
  same_draws next seeded ti td e (fun src => match framework_of src with None => True | Some f => chosen fw f end)
    (set_seed seeded e z fw false s) (set_seed seeded e z fw false s').
Proof.
  intros G V next seeded ti td e fw z s s' K l i src r E C.
  destruct (draws_agree next seeded ti td e (selected fw NumPy) (selected fw PyTorch) (selected fw TensorFlow) (selected fw JAX) l (set_seed seeded e z fw false s) (set_seed seeded e z fw false s')) as (_ & H).
  - unfold set_seed, agree. cbn. split; [auto|]. split; [intros ->; auto|]. split; [|split; intros -> ->; auto].
    intros -> ->. cbn. repeat split; auto. destruct (g_seed s), (g_seed s'); cbn; auto; exfalso; [pose proof (proj2 K eq_refl)|pose proof (proj1 K eq_refl)]; discriminate.
  - apply (H i src r E). destruct src; cbn in *; auto; now apply selected_In.
Qed.
(** A trial seeds only the frameworks of the cost functions (_benchmark.py:553-554),
    while schemes, minibatches and samplers draw from NumPy's generator whatever
    the costs: with PyTorch costs only, two runs of one trial with one seed draw
    differently. *)
Theorem C41_numpy_unseeded_refuted : exists (next : source -> nat -> nat -> nat * nat) seeded ti td e s s' z,
  g_seed s = g_seed s' /\
  fst (draws next seeded ti td e [(SNumPy, 0)] (set_seed seeded e z (Some [PyTorch]) false s)) <>
  fst (draws next seeded ti td e [(SNumPy, 0)] (set_seed seeded e z (Some [PyTorch]) false s')).
Proof.
  exists (fun _ _ g => (g, S g)), (fun _ z => Z.to_nat z), Z.of_nat, (fun d => d), (mkLibs true false false false),
    (mkRng (Some 1%Z) 0 0 0 0 0 [] None None), (mkRng (Some 1%Z) 0 7 0 0 0 [] None None), 5%Z.
  split; [reflexivity|]. vm_compute. discriminate.
Qed.

(** ---- non-vacuity ---- *)
Definition lcg (_ : source) (r : nat) (g : nat) : nat * nat := (g + r, 7 * g + r + 3).
Definition cpu : libs := mkLibs true false true true.
Definition st0 : rng nat := mkRng (Some 3%Z) 1 2 3 4 5 [(0, 6)] (Some 7) (Some 8).
Definition st1 : rng nat := mkRng None 10 20 30 40 50 [(2, 60)] (Some 70) (Some 80).
Definition reqs : list (source * nat) := [(SPython, 1); (SJax, 5); (STorchGen 0, 2); (STorchGen 1, 2); (SNumPy, 1); (SJax, 1); (STf, 0); (STorchGen 1, 1)].
Example C48_nonvacuous : ready cpu st0 /\
  fst (draws lcg (fun _ z => Z.to_nat z) Z.of_nat (fun d => d) cpu reqs (set_state cpu (get_state cpu (Some [PyTorch; TensorFlow]) st0) st1)) =
    [Some 2; Some 85; Some 8; Some 6; Some 3; Some 569; Some 7; Some 34] /\
  fst (draws lcg (fun _ z => Z.to_nat z) Z.of_nat (fun d => d) cpu reqs st0) = [Some 2; Some 13; Some 8; Some 6; Some 3; Some 65; Some 7; Some 34].
Proof. vm_compute. repeat split; auto; intros _ H; discriminate H. Qed.
Example C41_nonvacuous : trial_seed 42 0 0 = 606291022%Z /\ trial_seed 42 1 0 <> trial_seed 42 0 1.
Proof. vm_compute. split; [reflexivity|discriminate]. Qed.

Print Assumptions C48_restore_reproduces_draws.
Print Assumptions C48_restore_frame.
Print Assumptions C48_ready_invariant.
Print Assumptions C41_pairs_distinct.
Print Assumptions C41_algorithms_distinct.
Print Assumptions C41_seeded_draws_partial.
