(** C113: FedNova's normalisation coefficients are positive, and what they mean. *)
From Coq Require Import Reals String List Bool Arith ZArith Lia Lra FunctionalExtensionality.
From Coq Require QArith.
From Verif.Model Require Import Validate.
From Verif.Spec Require Import ValidateSpec.
From Verif.Model Require Import PyDict History Messages Network Runner Vec P2P Fed.
From Verif.Spec Require Import NetworkSpec P2PSpec FedSpec.
From Verif.Proofs Require Import FedSteps FedRuns3 P2PLock FedRuns4 NovaCoeff NovaMom.
From Verif.Props Require Import P2PProps FedProps.
Import ListNotations.
Open Scope R_scope.

(** What a client uploads: the coefficient on the normaliser channel, the distance it
    moved on the other. If [step_size * penalty < 2] (or no penalty is used) the
    coefficient is positive, for every number of local steps, every momentum and all
    gradients. *)
Theorem C113_upload_positive grad steps a beta mu i b p d :
  (1 <= steps i)%nat -> match beta with Some be => 0 <= be | None => True end -> match mu with Some m => a * m < 2 | None => True end ->
  exists ai y p' d', fednova_client grad steps a beta mu i b (p, d) = Some ([(cn, one_entry ai); (cg, vsub b y)], (p', d')) /\ v_x p' = Some y /\ 0 < ai.
Proof.
  intros S B M. destruct (client_upload grad steps a beta mu i b p d) as (y & p' & d' & c & E & V & _ & ->).
  exists (fst (nova_coeff a beta mu (steps i))), y, p', d'. split; [exact E|split; [exact V|]]. destruct (steps i) as [|n]; [lia|]. now apply coeff_pos.
Qed.
Example C113_upload_positive_case : (1 <= 7)%nat /\ 0 <= 9/10 /\ (15/10) * 1 < 2. Proof. split; [lia|lra]. Qed.

(** So no round of a run raises the "must be positive" error, however the clients are
    selected and whatever drops messages; the run follows FedNova's equations. *)
Theorem C113_run t e sv period N w grad sch steps count a beta mu x0 : fed_net t e sv -> proper sch -> faithful e ->
  (forall i, In i (agents t) -> (1 <= steps i)%nat) -> match beta with Some be => 0 <= be | None => True end -> match mu with Some m => a * m < 2 | None => True end ->
  exists X, throughout t period (fed N (fedavg_init t sv x0) (fed_round t e sv (fednova_alg grad steps count a beta mu None) sch)) w
      (fun k st => forall i, In i (t_nodes t) -> state_is st i (X k i)) /\
    (forall i, X 0%nat i = x0 i) /\
    forall k, (k < N)%nat -> exists P R, participation t e sch P R /\
      (forall i, In i P -> nova_path grad i a beta mu (X k sv) (steps i) (X k sv) vzero (X (S k) i)) /\
      (forall i, In i (agents t) -> ~ In i P -> X (S k) i = X k i) /\
      (R = [] -> X (S k) sv = X k sv) /\
      (R <> [] -> X (S k) sv = vsub (X k sv) (nova_aggregate count (fun i => fst (nova_coeff a beta mu (steps i))) (fun i => vsub (X k sv) (X (S k) i)) R)).
Proof.
  intros NET PR FA S B M. apply (C37_fednova_run t e sv NET); auto. intros i I. specialize (S i I). destruct (steps i) as [|n]; [lia|]. now apply coeff_pos.
Qed.
Example C113_run_case : exists X, throughout star3 (fun _ => 1%nat) (fed 10%nat (fedavg_init star3 2%nat start) (fed_round star3 sync_env 2%nat (fednova_alg qgrad S (fun _ => 20) (3/2) (Some (9/10)) (Some 1) None) None)) blank
      (fun k st => forall i, In i (t_nodes star3) -> state_is st i (X k i)) /\ X 0%nat 1%nat = start 1%nat.
Proof.
  destruct (C113_run star3 sync_env 2%nat (fun _ => 1%nat) 10 blank qgrad None S (fun _ => 20) (3/2) (Some (9/10)) (Some 1) start star3_sync) as (X & T & X0 & _).
  - apply proper_none.
  - apply reliable_faithful, sync_ok.
  - intros; lia.
  - lra.
  - lra.
  - exists X. split; [exact T|apply X0].
Qed.

(** The same with server momentum: [m] is the server's momentum. *)
Theorem C113_server_momentum_run t e sv period N w grad sch steps count a beta mu ga x0 : fed_net t e sv -> proper sch -> faithful e ->
  (forall i, In i (agents t) -> (1 <= steps i)%nat) -> match beta with Some be => 0 <= be | None => True end -> match mu with Some m => a * m < 2 | None => True end ->
  exists X m, throughout t period (fed N (fednova_mom_init t sv x0) (fed_round t e sv (fednova_alg grad steps count a beta mu (Some ga)) sch)) w
      (fun k st => (forall i, In i (t_nodes t) -> state_is st i (X k i)) /\ aux_is st sv "m" (m k)) /\
    (forall i, X 0%nat i = x0 i) /\ m 0%nat = vzero /\
    forall k, (k < N)%nat -> exists P R, participation t e sch P R /\
      (forall i, In i P -> nova_path grad i a beta mu (X k sv) (steps i) (X k sv) vzero (X (S k) i)) /\
      (forall i, In i (agents t) -> ~ In i P -> X (S k) i = X k i) /\
      (R = [] -> X (S k) sv = X k sv /\ m (S k) = m k) /\
      (R <> [] -> m (S k) = vadd (vscal ga (m k)) (nova_aggregate count (fun i => fst (nova_coeff a beta mu (steps i))) (fun i => vsub (X k sv) (X (S k) i)) R) /\
         X (S k) sv = vsub (X k sv) (m (S k))).
Proof.
  intros NET PR FA S B M. apply (fednova_mom_run t e sv NET); auto. intros i I. specialize (S i I). destruct (steps i) as [|n]; [lia|]. now apply coeff_pos.
Qed.
Example C113_server_momentum_run_case : exists X m, throughout star3 (fun _ => 1%nat) (fed 10%nat (fednova_mom_init star3 2%nat start) (fed_round star3 sync_env 2%nat (fednova_alg qgrad S (fun _ => 20) (1/10) None (Some 1) (Some (9/10))) None)) blank
      (fun k st => (forall i, In i (t_nodes star3) -> state_is st i (X k i)) /\ aux_is st 2%nat "m" (m k)) /\ X 0%nat 1%nat = start 1%nat.
Proof.
  destruct (C113_server_momentum_run star3 sync_env 2%nat (fun _ => 1%nat) 10 blank qgrad None S (fun _ => 20) (1/10) None (Some 1) (9/10) start star3_sync) as (X & m & T & X0 & _).
  - apply proper_none.
  - apply reliable_faithful, sync_ok.
  - intros; lia.
  - exact I.
  - lra.
  - exists X, m. split; [exact T|apply X0].
Qed.

(** The bound is sharp: without momentum, if [step_size * penalty >= 2] -- which the
    constructor accepts -- the server raises in every round in which it receives the
    uploads of a client with an even number of local steps. *)
Theorem C113_rejected grad steps count a mu smom i n b p d part inb s g up p' : 2 <= a * mu -> steps i = (2 * n)%nat ->
  fednova_client grad steps a None (Some mu) i b (p, d) = Some (up, p') ->
  (forall m, In (cn, m) up -> dget Nat.eqb (inb cn) i = Some m) -> dget Nat.eqb (inb cg) i = Some g -> In i part ->
  fednova_agg count smom part inb s = None.
Proof.
  intros H E C N G I. destruct (client_upload grad steps a None (Some mu) i b p d) as (y & q & d' & c & E' & _). rewrite E' in C. injection C as <- <-.
  apply (nova_raises count smom part inb s i (one_entry (fst (nova_coeff a None (Some mu) (steps i)))) g); auto.
  - apply N. now left.
  - cbn [one_entry]. rewrite E. now apply coeff_even.
Qed.
Example C113_rejected_case : exists up p' inb g, fednova_client qgrad (fun _ => 2%nat) 2 None (Some 1) 1%nat vzero (mkPriv None [] 0, 0%nat) = Some (up, p') /\
  (forall m, In (cn, m) up -> dget Nat.eqb (inb cn) 1%nat = Some m) /\ dget Nat.eqb (inb cg) 1%nat = Some g /\
  fednova_agg (fun _ => 20) None [0%nat; 1%nat] inb (mkPriv (Some vzero) [] 0, 0%nat) = None.
Proof.
  destruct (client_upload qgrad (fun _ => 2%nat) 2 None (Some 1) 1%nat vzero (mkPriv None [] 0) 0) as (y & p' & d' & c & E & _).
  set (z := one_entry _) in E. set (inb := fun ch : channel => if String.eqb ch cn then [(1%nat, z)] else [(1%nat, c)]).
  assert (N : forall m, In (cn, m) [(cn, z); (cg, c)] -> dget Nat.eqb (inb cn) 1%nat = Some m) by (intros m [[= <-]|[[= ]|[]]]; reflexivity).
  assert (H : (1 < 2)%nat) by lia.
  exists [(cn, z); (cg, c)], (p', d'), inb, c. split; [exact E|split; [exact N|split; [reflexivity|]]].
  apply (C113_rejected qgrad (fun _ => 2%nat) (fun _ => 20) 2 1 None 1%nat 1 vzero (mkPriv None [] 0) 0 [0%nat; 1%nat] inb (mkPriv (Some vzero) [] 0, 0%nat) c [(cn, z); (cg, c)] (p', d')); auto; [lra|right; now left].
Qed.

(** The constructor accepts every positive step size together with every non-negative
    penalty. *)
Theorem C113_accepted : forall (q m : QArith_base.Q) (n : Z), QArith_base.Qlt (QArith_base.inject_Z 0) q -> QArith_base.Qle (QArith_base.inject_Z 0) m -> (0 < n)%Z ->
  accepted FedNova [("step_size", VFloat (FFin q)); ("use_prox", VInt 1); ("penalty", VFloat (FFin m)); ("num_local_steps", VInt n)]%string.
Proof.
  intros q m n H M N. unfold accepted.
  assert (A : QArith_base.Qle_bool q (QArith_base.Qmake 0 1) = false).
  { destruct (QArith_base.Qle_bool q _) eqn:E; auto. apply QArith_base.Qle_bool_iff in E. exfalso. exact (QArith_base.Qlt_not_le _ _ H E). }
  assert (B : QArith_base.Qle_bool (QArith_base.Qmake 0 1) m = true) by now apply QArith_base.Qle_bool_iff.
  assert (C : (n <=? 0)%Z = false) by now apply Z.leb_gt.
  eexists. cbv -[Z.leb Z.compare QArith_base.Qle_bool]. rewrite A, B, C.
  repeat match goal with |- context [QArith_base.Qle_bool ?x ?y] => let v := eval vm_compute in (QArith_base.Qle_bool x y) in change (QArith_base.Qle_bool x y) with v; cbv iota end.
  reflexivity.
Qed.
Example C113_accepted_case : accepted FedNova [("step_size", VFloat (FFin (QArith_base.Qmake 3 2))); ("use_prox", VInt 1); ("penalty", VFloat (FFin (QArith_base.Qmake 2 1))); ("num_local_steps", VInt 2)]%string.
Proof. apply C113_accepted; [reflexivity|discriminate|reflexivity]. Qed.

(** What the coefficient means: under a constant gradient the distance moved is
    [step_size * coefficient * gradient], if momentum and penalty are not used together. *)
Theorem C113_normalizes grad steps a beta mu i b p d g : (forall k x, grad k i x = g) -> beta = None \/ mu = None ->
  exists ai c p', fednova_client grad steps a beta mu i b (p, d) = Some ([(cn, one_entry ai); (cg, c)], p') /\ forall j, c j = a * ai * g j.
Proof.
  intros C O. destruct (client_upload grad steps a beta mu i b p d) as (y & p' & d' & c & E & _ & P & ->).
  do 3 eexists. split; [exact E|]. intro j.
  pose proof (const_path grad i a beta mu b g C O (steps i) b vzero y P 0%nat) as H. rewrite Nat.add_0_r in H. apply H.
  - intro k. cbn. ring.
  - intro k. left. cbn. unfold vzero. ring.
Qed.
Example C113_normalizes_case : forall k x, (fun (_ : nat) (_ : agent_id) (_ : vec) => one_entry 3) k 0%nat x = one_entry 3. Proof. reflexivity. Qed.
(** With both it does not: three steps of size 1 along the gradient 1, momentum 1/2 and
    penalty 1/2, move by 5/2, but the coefficient is 11/4. *)
Theorem C113_momentum_and_penalty : exists c p', fednova_client (fun _ _ _ => one_entry 1) (fun _ => 3%nat) 1 (Some (1/2)) (Some (1/2)) 0%nat vzero (mkPriv None [] 0, 0%nat) =
  Some ([(cn, one_entry (11/4)); (cg, c)], p') /\ c 0%nat = 5/2.
Proof.
  do 2 eexists. split.
  - unfold fednova_client, nova_steps, nova_step, gradient, setx, lbind, lret. cbn [nv_x nv_cum nv_mom nv_a nv_s fst snd].
    match goal with |- Some ([(_, one_entry ?v); _], _) = _ => replace v with (11/4) by field end. reflexivity.
  - unfold vadd, vsub, vscal, vzero, one_entry. field.
Qed.

(** Closed forms of the coefficients, without momentum and penalty, with a penalty, and
    with momentum. *)
Theorem C113_plain grad steps a i b p d : exists c p', fednova_client grad steps a None None i b (p, d) = Some ([(cn, one_entry (INR (steps i))); (cg, c)], p').
Proof. destruct (client_upload grad steps a None None i b p d) as (y & p' & d' & c & E & _). rewrite coeff_plain in E. do 2 eexists. exact E. Qed.
Theorem C113_penalty grad steps a mu i b p d : a * mu <> 0 ->
  exists c p', fednova_client grad steps a None (Some mu) i b (p, d) = Some ([(cn, one_entry ((1 - (1 - a * mu) ^ steps i) / (a * mu))); (cg, c)], p').
Proof.
  intro N. destruct (client_upload grad steps a None (Some mu) i b p d) as (y & p' & d' & c & E & _).
  assert (F : fst (nova_coeff a None (Some mu) (steps i)) = (1 - (1 - a * mu) ^ steps i) / (a * mu)).
  { rewrite <- coeff_penalty. field. split; intros ->; apply N; ring. }
  rewrite F in E.
  do 2 eexists. exact E.
Qed.
Theorem C113_momentum grad steps a be i b p d : be <> 1 ->
  exists c p', fednova_client grad steps a (Some be) None i b (p, d) = Some ([(cn, one_entry ((INR (steps i) - be * (1 - be ^ steps i) / (1 - be)) / (1 - be))); (cg, c)], p').
Proof.
  intro N. destruct (client_upload grad steps a (Some be) None i b p d) as (y & p' & d' & c & E & _).
  assert (F : fst (nova_coeff a (Some be) None (steps i)) = (INR (steps i) - be * (1 - be ^ steps i) / (1 - be)) / (1 - be)).
  { rewrite <- (coeff_momentum a) by auto. field. lra. }
  rewrite F in E.
  do 2 eexists. exact E.
Qed.
Example C113_closed_case : (1/10) * (1/2) <> 0 /\ 9/10 <> 1 /\ (INR 2 - 9/10 * (1 - (9/10) ^ 2) / (1 - 9/10)) / (1 - 9/10) = 1 + (9/10 + 1). Proof. cbn. split; [lra|split; [lra|field]]. Qed.

Print Assumptions C113_upload_positive.
Print Assumptions C113_run.
Print Assumptions C113_rejected.
Print Assumptions C113_normalizes.
Print Assumptions C113_momentum_and_penalty.
Print Assumptions C113_plain.
Print Assumptions C113_penalty.
Print Assumptions C113_momentum.
Print Assumptions C113_accepted.
Print Assumptions C113_server_momentum_run.
