(** C37-C40: the federated algorithms. *)
From Coq Require Import Reals String List Bool Arith ZArith QArith.Qcanon Lia Lra FunctionalExtensionality.
From Verif.Model Require Import PyDict History Messages Network Runner Vec P2P Fed.
From Verif.Spec Require Import NetworkSpec P2PSpec FedSpec AlgSpec RunnerSpec.
From Verif.Proofs Require Import PyDictProofs NetworkProofs RunnerProofs EmpiricalProofs P2PLock P2PRuns FedSteps FedSteps2 FedRuns FedRuns2 FedRuns3 FedReduce FedRuns4 FedDerived FedDerived2 FedSelect AlgClient FedLock.
Import ListNotations.
Open Scope R_scope.

(** ** C37, one round on any network *)
(** Any activity, drops, compression and noise, any selection. [round_result] says
    that [Algorithm.step] in iteration [k], as called by [Algorithm.run], does not
    raise and that clients which do not take part are untouched; [P] are the
    selected clients that received the server's broadcast, [R] those whose uploads
    arrived. *)
Section Round.
  Variables (t : topo) (e : env vec) (sv : agent_id).
  Hypothesis NET : fed_net t e sv.
  Variable grad : nat -> agent_id -> vec -> vec.
  Variable prox : nat -> agent_id -> vec -> R -> vec.

  Theorem C37_fedavg_round sch K a k d st x : proper sch -> state_is st sv x ->
    exists st' P R B Y M, round_result t e sv (fedavg_alg grad K a) sch k d d st st' P /\ uploaded e sv st' P dflt R /\
      (forall i, In i P -> got e sv st' i (B i) x /\ (exists s, local_steps grad i (fun y g => vsub y (vscal a g)) K (B i) (Y i) s) /\ state_is st' i (Y i)) /\
      (forall i, In i R -> delivered e sv st' dflt i (M i) (Y i)) /\
      (R = [] -> state_is st' sv x) /\ (R <> [] -> state_is st' sv (mean_over R M)).
  Proof. exact (fedavg_round t e sv NET grad sch K a k d st x). Qed.

  Theorem C37_fedprox_round sch K a mu k d st x : proper sch -> state_is st sv x ->
    exists st' P R B Y M, round_result t e sv (fedprox_alg grad K a mu) sch k d d st st' P /\ uploaded e sv st' P dflt R /\
      (forall i, In i P -> got e sv st' i (B i) x /\
         (exists s, local_steps grad i (fun y g => vsub y (vscal a (vadd g (vscal mu (vsub y (B i)))))) K (B i) (Y i) s) /\ state_is st' i (Y i)) /\
      (forall i, In i R -> delivered e sv st' dflt i (M i) (Y i)) /\
      (R = [] -> state_is st' sv x) /\ (R <> [] -> state_is st' sv (mean_over R M)).
  Proof. exact (fedprox_round t e sv NET grad sch K a mu k d st x). Qed.

  Theorem C37_fedopt_round sch K a b1 eps eta Phi k d st x m v : proper sch -> state_is st sv x -> aux_is st sv "m" m -> aux_is st sv "v" v ->
    exists st' P R B Y M, round_result t e sv (fedopt_alg grad K a b1 eps eta Phi) sch k d d st st' P /\ uploaded e sv st' P dflt R /\
      (forall i, In i P -> got e sv st' i (B i) x /\ (exists s, local_steps grad i (fun y g => vsub y (vscal a g)) K (B i) (Y i) s) /\ state_is st' i (Y i)) /\
      (forall i, In i R -> delivered e sv st' dflt i (M i) (vsub (Y i) (B i))) /\
      (R = [] -> state_is st' sv x /\ aux_is st' sv "m" m /\ aux_is st' sv "v" v) /\
      (R <> [] -> let D := mean_over R M in let m' := vadd (vscal b1 m) (vscal (1 - b1) D) in let v' := Phi v D in
         aux_is st' sv "m" m' /\ aux_is st' sv "v" v' /\
         state_is st' sv (fun c => x c + eta * m' c / (sqrt (v' c) + eps))).
  Proof. exact (fedopt_round t e sv NET grad sch K a b1 eps eta Phi k d st x m v). Qed.

  Theorem C37_scaffold_round sch K a eta k d st x c (ci : agent_id -> vec) : proper sch ->
    state_is st sv x -> aux_is st sv "c" c -> (forall i, In i (agents t) -> aux_is st i "c_i" (ci i)) ->
    exists st' P R B Y MD MC, round_result t e sv (scaffold_alg t grad K a eta) sch k d d st st' P /\ uploaded2 e sv st' P cm cc R /\
      (let cn := fun i => vadd (vsub (ci i) (vrow1 (B i))) (vscal (/ (INR K * a)) (vsub (vrow0 (B i)) (Y i))) in
       (forall i, In i P -> got e sv st' i (B i) (vstack x c) /\
          (exists s, local_steps grad i (fun y g => vsub y (vscal a (vadd (vsub g (ci i)) (vrow1 (B i))))) K (vrow0 (B i)) (Y i) s) /\
          state_is st' i (Y i) /\ aux_is st' i "c_i" (cn i)) /\
       (forall i, In i R -> delivered e sv st' cm i (MD i) (vsub (Y i) (vrow0 (B i))) /\ delivered e sv st' cc i (MC i) (vsub (cn i) (ci i)))) /\
      (R = [] -> state_is st' sv x /\ aux_is st' sv "c" c) /\
      (R <> [] -> state_is st' sv (vadd x (vscal eta (mean_over R MD))) /\
                  aux_is st' sv "c" (vadd c (vscal (INR (length R) / INR (length (agents t))) (mean_over R MC)))).
  Proof. exact (scaffold_round t e sv NET grad sch K a eta k d st x c ci). Qed.

  Theorem C37_feddyn_round sch K a al k d st x h (g0 : agent_id -> vec) : proper sch ->
    state_is st sv x -> aux_is st sv "h" h -> (forall i, In i (agents t) -> aux_is st i "g" (g0 i)) ->
    exists st' P R B Y M, round_result t e sv (feddyn_alg t grad K a al) sch k d d st st' P /\ uploaded e sv st' P dflt R /\
      (forall i, In i P -> got e sv st' i (B i) x /\
          (exists s, local_steps grad i (fun y g => vsub y (vscal a (vadd (vsub g (g0 i)) (vscal al (vsub y (B i)))))) K (B i) (Y i) s) /\
          state_is st' i (Y i) /\ aux_is st' i "g" (vsub (g0 i) (vscal al (vsub (Y i) (B i))))) /\
      (forall i, In i R -> delivered e sv st' dflt i (M i) (Y i)) /\
      (R = [] -> state_is st' sv x /\ aux_is st' sv "h" h) /\
      (R <> [] -> let h' := vsub h (vscal (al / INR (length (agents t))) (sum_over R (fun i => vsub (M i) x))) in
                  aux_is st' sv "h" h' /\ state_is st' sv (vsub (mean_over R M) (vscal (/ al) h'))).
  Proof. exact (feddyn_round t e sv NET grad sch K a al k d st x h g0). Qed.

  Theorem C37_fednova_round sch steps count a beta mu smom k d st x : proper sch -> faithful e ->
    (forall i, In i (agents t) -> 0 < fst (nova_coeff a beta mu (steps i))) ->
    state_is st sv x -> 
    (forall ga, smom = Some ga -> exists m, aux_is st sv "m" m) ->
    exists st' P R Y, round_result t e sv (fednova_alg grad steps count a beta mu smom) sch k d d st st' P /\ uploaded2 e sv st' P cn cg R /\
      (forall i, In i P -> got e sv st' i x x /\ nova_path grad i a beta mu x (steps i) x vzero (Y i) /\ state_is st' i (Y i)) /\
      (forall i, In i R -> sees st' sv i cg (vsub x (Y i))) /\
      (R = [] -> state_is st' sv x /\ forall m, aux_is st sv "m" m -> aux_is st' sv "m" m) /\
      (R <> [] -> let G := nova_aggregate count (fun i => fst (nova_coeff a beta mu (steps i))) (fun i => vsub x (Y i)) R in
         match smom with
         | None => state_is st' sv (vsub x G)
         | Some ga => forall m, aux_is st sv "m" m -> aux_is st' sv "m" (vadd (vscal ga m) G) /\ state_is st' sv (vsub x (vadd (vscal ga m) G))
         end).
  Proof. exact (fednova_round t e sv NET grad sch steps count a beta mu smom k d st x). Qed.

  Theorem C37_fedlt_round sch sol K a rho k d st (zs x z : agent_id -> vec) : proper sch ->
    auxmap_is st sv "z_by_client" (client_rows t zs) ->
    (forall i, In i (agents t) -> state_is st i (x i) /\ aux_is st i "z" (z i)) ->
    let xs := prox d sv (mean_over (agents t) zs) (rho / INR (length (agents t))) in
    exists st' P R B Y M, round_result t e sv (fedlt_alg t sv grad prox sol K a rho) sch k (S d) d st st' P /\ uploaded e sv st' P dflt R /\
      state_is st' sv xs /\
      (forall i, In i P -> got e sv st' i (B i) xs /\
         fedlt_local grad sol K a rho i (fun c => 2 * B i c - z i c) (x i) (Y i) /\
         state_is st' i (Y i) /\ aux_is st' i "z" (fun c => z i c + 2 * (Y i c - B i c))) /\
      (forall i, In i R -> delivered e sv st' dflt i (M i) (fun c => z i c + 2 * (Y i c - B i c))) /\
      auxmap_is st' sv "z_by_client" (client_rows t (replaced R M zs)).
  Proof. exact (fedlt_round t e sv NET grad prox sch sol K a rho k d st zs x z). Qed.

  Theorem C37_fedpd_round steps a eta coin k d st (x l c : agent_id -> vec) :
    (forall i, In i (agents t) -> state_is st i (x i) /\ aux_is st i "lambda" (l i) /\ aux_is st i "center" (c i)) ->
    exists st' Y, let P := active_at t e k st in
      let l' := fun i => vadd (l i) (vscal (/ eta) (vsub (Y i) (c i))) in
      let C := fun i => vadd (Y i) (vscal eta (l' i)) in
      (exists d', fstep (fedpd_round t e sv grad steps a eta coin k) (d, step t k st) = ((d', st'), false)) /\
      (forall i, In i (agents t) -> ~ In i P -> untouched st st' i) /\
      (forall i, In i P -> fedpd_local grad steps a eta i (x i) (l i) (c i) (Y i) /\ state_is st' i (Y i) /\ aux_is st' i "lambda" (l' i)) /\
      (coin k = false -> untouched st st' sv /\ forall i, In i P -> aux_is st' i "center" (C i)) /\
      (coin k = true -> exists R M, uploaded e sv st' P cand R /\ (forall i, In i R -> delivered e sv st' cand i (M i) (C i)) /\
         (R = [] -> untouched st st' sv /\ forall i, In i P -> aux_is st' i "center" (C i)) /\
         (R <> [] -> state_is st' sv (mean_over R M) /\
            forall i, In i P -> (exists b, sees st' i sv cupd b /\ aux_is st' i "center" b /\ (faithful e -> b = mean_over R M)) \/
              ((forall b, ~ sees st' i sv cupd b) /\ aux_is st' i "center" (C i) /\ ~ reliable e))).
  Proof. exact (fedpd_round_ok t e sv NET grad prox steps a eta coin k d st x l c). Qed.

End Round.


(** ** C37, whole runs on faithful networks *)
Section Run.
  Variables (t : topo) (e : env vec) (sv : agent_id).
  Hypothesis NET : fed_net t e sv.
  Variables (period : agent_id -> nat) (N : nat) (w : world vec nat).
  Variable grad : nat -> agent_id -> vec -> vec.
  Variable prox : nat -> agent_id -> vec -> R -> vec.
  Notation clients := (agents t).

  Theorem C37_fedavg_run sch K a x0 : proper sch -> faithful e ->
    exists X, throughout t period (fed N (fedavg_init t sv x0) (fed_round t e sv (fedavg_alg grad K a) sch)) w (fun k st => forall i, In i (t_nodes t) -> state_is st i (X k i)) /\
      (forall i, X 0%nat i = x0 i) /\
      forall k, (k < N)%nat -> exists P R, participation t e sch P R /\
        (forall i, In i P -> exists s, local_steps grad i (fun y g => vsub y (vscal a g)) K (X k sv) (X (S k) i) s) /\
        (forall i, In i clients -> ~ In i P -> X (S k) i = X k i) /\
        (R = [] -> X (S k) sv = X k sv) /\ (R <> [] -> X (S k) sv = mean_over R (X (S k))).
  Proof. exact (fedavg_run t e sv NET period N w grad sch K a x0). Qed.

  Theorem C37_fedprox_run sch K a mu x0 : proper sch -> faithful e ->
    exists X, throughout t period (fed N (fedavg_init t sv x0) (fed_round t e sv (fedprox_alg grad K a mu) sch)) w (fun k st => forall i, In i (t_nodes t) -> state_is st i (X k i)) /\
      (forall i, X 0%nat i = x0 i) /\
      forall k, (k < N)%nat -> exists P R, participation t e sch P R /\
        (forall i, In i P -> exists s, local_steps grad i (fun y g => vsub y (vscal a (vadd g (vscal mu (vsub y (X k sv)))))) K (X k sv) (X (S k) i) s) /\
        (forall i, In i clients -> ~ In i P -> X (S k) i = X k i) /\
        (R = [] -> X (S k) sv = X k sv) /\ (R <> [] -> X (S k) sv = mean_over R (X (S k))).
  Proof. exact (fedprox_run t e sv NET period N w grad sch K a mu x0). Qed.

  Theorem C37_fedopt_run sch K a b1 eps eta Phi x0 : proper sch -> faithful e ->
    exists X m v, throughout t period (fed N (fedopt_init t sv x0) (fed_round t e sv (fedopt_alg grad K a b1 eps eta Phi) sch)) w
        (fun k st => (forall i, In i (t_nodes t) -> state_is st i (X k i)) /\ aux_is st sv "m" (m k) /\ aux_is st sv "v" (v k)) /\
      (forall i, X 0%nat i = x0 i) /\ m 0%nat = vzero /\ v 0%nat = vzero /\
      forall k, (k < N)%nat -> exists P R, participation t e sch P R /\
        (forall i, In i P -> exists s, local_steps grad i (fun y g => vsub y (vscal a g)) K (X k sv) (X (S k) i) s) /\
        (forall i, In i clients -> ~ In i P -> X (S k) i = X k i) /\
        (R = [] -> X (S k) sv = X k sv /\ m (S k) = m k /\ v (S k) = v k) /\
        (R <> [] -> let D := mean_over R (fun i => vsub (X (S k) i) (X k sv)) in
           m (S k) = vadd (vscal b1 (m k)) (vscal (1 - b1) D) /\ v (S k) = Phi (v k) D /\
           X (S k) sv = fun c => X k sv c + eta * m (S k) c / (sqrt (v (S k) c) + eps)).
  Proof. exact (fedopt_run t e sv NET period N w grad sch K a b1 eps eta Phi x0). Qed.

  Theorem C37_scaffold_run sch K a eta x0 c0 : proper sch -> faithful e ->
    exists X C, throughout t period (fed N (scaffold_init t sv x0 c0) (fed_round t e sv (scaffold_alg t grad K a eta) sch)) w
        (fun k st => (forall i, In i (t_nodes t) -> state_is st i (X k i)) /\ aux_is st sv "c" (C k sv) /\ forall i, In i clients -> aux_is st i "c_i" (C k i)) /\
      (forall i, X 0%nat i = x0 i /\ C 0%nat i = c0 i) /\
      forall k, (k < N)%nat -> exists P R, participation t e sch P R /\
        (forall i, In i P ->
           (exists s, local_steps grad i (fun y g => vsub y (vscal a (vadd (vsub g (C k i)) (C k sv)))) K (X k sv) (X (S k) i) s) /\
           C (S k) i = vadd (vsub (C k i) (C k sv)) (vscal (/ (INR K * a)) (vsub (X k sv) (X (S k) i)))) /\
        (forall i, In i clients -> ~ In i P -> X (S k) i = X k i /\ C (S k) i = C k i) /\
        (R = [] -> X (S k) sv = X k sv) /\
        (R <> [] -> X (S k) sv = vadd (X k sv) (vscal eta (mean_over R (fun i => vsub (X (S k) i) (X k sv))))) /\
        C (S k) sv = vadd (C k sv) (vscal (/ INR (length clients)) (sum_over R (fun i => vsub (C (S k) i) (C k i)))).
  Proof. exact (scaffold_run t e sv NET period N w grad sch K a eta x0 c0). Qed.

  Theorem C37_feddyn_run sch K a al x0 : proper sch -> faithful e ->
    exists X G, throughout t period (fed N (feddyn_init t sv x0) (fed_round t e sv (feddyn_alg t grad K a al) sch)) w
        (fun k st => (forall i, In i (t_nodes t) -> state_is st i (X k i)) /\ aux_is st sv "h" (G k sv) /\ forall i, In i clients -> aux_is st i "g" (G k i)) /\
      (forall i, X 0%nat i = x0 i /\ G 0%nat i = vzero) /\
      forall k, (k < N)%nat -> exists P R, participation t e sch P R /\
        (forall i, In i P ->
           (exists s, local_steps grad i (fun y g => vsub y (vscal a (vadd (vsub g (G k i)) (vscal al (vsub y (X k sv)))))) K (X k sv) (X (S k) i) s) /\
           G (S k) i = vsub (G k i) (vscal al (vsub (X (S k) i) (X k sv)))) /\
        (forall i, In i clients -> ~ In i P -> X (S k) i = X k i /\ G (S k) i = G k i) /\
        G (S k) sv = vadd (G k sv) (vscal (/ INR (length clients)) (sum_over R (fun i => vsub (G (S k) i) (G k i)))) /\
        (R = [] -> X (S k) sv = X k sv) /\
        (R <> [] -> X (S k) sv = vsub (mean_over R (X (S k))) (vscal (/ al) (G (S k) sv))).
  Proof. exact (feddyn_run t e sv NET period N w grad sch K a al x0). Qed.

  Theorem C37_fednova_run sch steps count a beta mu x0 : proper sch -> faithful e ->
    (forall i, In i clients -> 0 < fst (nova_coeff a beta mu (steps i))) ->
    exists X, throughout t period (fed N (fedavg_init t sv x0) (fed_round t e sv (fednova_alg grad steps count a beta mu None) sch)) w
        (fun k st => forall i, In i (t_nodes t) -> state_is st i (X k i)) /\
      (forall i, X 0%nat i = x0 i) /\
      forall k, (k < N)%nat -> exists P R, participation t e sch P R /\
        (forall i, In i P -> nova_path grad i a beta mu (X k sv) (steps i) (X k sv) vzero (X (S k) i)) /\
        (forall i, In i clients -> ~ In i P -> X (S k) i = X k i) /\
        (R = [] -> X (S k) sv = X k sv) /\
        (R <> [] -> X (S k) sv = vsub (X k sv) (nova_aggregate count (fun i => fst (nova_coeff a beta mu (steps i))) (fun i => vsub (X k sv) (X (S k) i)) R)).
  Proof. exact (fednova_run t e sv NET period N w grad sch steps count a beta mu x0). Qed.

  Theorem C37_fedlt_run sch sol K a rho x0 z0 : proper sch -> faithful e ->
    exists X Z ZS, throughout t period (fed N (fedlt_init t sv x0 z0) (fed_round t e sv (fedlt_alg t sv grad prox sol K a rho) sch)) w
        (fun k st => (forall i, In i (t_nodes t) -> state_is st i (X k i)) /\ (forall i, In i clients -> aux_is st i "z" (Z k i)) /\
           auxmap_is st sv "z_by_client" (client_rows t (ZS k))) /\
      (forall i, X 0%nat i = x0 i /\ Z 0%nat i = z0 i /\ ZS 0%nat i = z0 i) /\
      forall k, (k < N)%nat -> exists P R, participation t e sch P R /\
        (exists n, X (S k) sv = prox n sv (mean_over clients (ZS k)) (rho / INR (length clients))) /\
        (forall i, In i P -> fedlt_local grad sol K a rho i (fun c => 2 * X (S k) sv c - Z k i c) (X k i) (X (S k) i) /\
           Z (S k) i = fun c => Z k i c + 2 * (X (S k) i c - X (S k) sv c)) /\
        (forall i, In i clients -> ~ In i P -> X (S k) i = X k i /\ Z (S k) i = Z k i) /\
        (forall i, In i R -> ZS (S k) i = Z (S k) i) /\ (forall i, ~ In i R -> ZS (S k) i = ZS k i).
  Proof. exact (fedlt_run t e sv NET period N w grad prox sch sol K a rho x0 z0). Qed.


  Theorem C37_fedpd_run steps a eta coin x0 : faithful e ->
    exists X L C, throughout t period (fed N (fedpd_init t sv x0) (fedpd_round t e sv grad steps a eta coin)) w
        (fun k st => (forall i, In i (t_nodes t) -> state_is st i (X k i)) /\
           forall i, In i clients -> aux_is st i "lambda" (L k i) /\ aux_is st i "center" (C k i)) /\
      (forall i, X 0%nat i = x0 i /\ L 0%nat i = vzero /\ C 0%nat i = x0 sv) /\
      forall k, (k < N)%nat -> exists P R, participation t e None P R /\
        (forall i, In i P -> fedpd_local grad steps a eta i (X k i) (L k i) (C k i) (X (S k) i) /\
           L (S k) i = vadd (L k i) (vscal (/ eta) (vsub (X (S k) i) (C k i)))) /\
        (forall i, In i clients -> ~ In i P -> X (S k) i = X k i /\ L (S k) i = L k i /\ C (S k) i = C k i) /\
        (coin k = false \/ R = [] -> X (S k) sv = X k sv /\ forall i, In i P -> C (S k) i = vadd (X (S k) i) (vscal eta (L (S k) i))) /\
        (coin k = true -> R <> [] ->
           X (S k) sv = mean_over R (fun i => vadd (X (S k) i) (vscal eta (L (S k) i))) /\
           forall i, In i P -> C (S k) i = X (S k) sv \/ (~ reliable e /\ C (S k) i = vadd (X (S k) i) (vscal eta (L (S k) i)))).
  Proof. exact (fedpd_run t e sv NET period N w grad prox steps a eta coin x0). Qed.

  (** Reliable and synchronous, one local step: gradient descent on the average. *)
  Theorem C37_fedavg_is_gradient_descent a x0 : clients <> [] -> synchronous e ->
    exists X G, throughout t period (fed N (fedavg_init t sv x0) (fed_round t e sv (fedavg_alg grad 1 a) None)) w (fun k st => forall i, In i (t_nodes t) -> state_is st i (X k i)) /\
      (forall i, X 0%nat i = x0 i) /\
      forall k, (k < N)%nat -> (forall i, In i clients -> gradient_of grad i (X k sv) (G k i)) /\
        X (S k) sv = vsub (X k sv) (vscal a (mean_over clients (G k))).
  Proof. intro NE. exact (fedavg_gd t e sv NET NE period N w grad a x0). Qed.

  (** FedLT on a reliable network, any activity and selection: the server's copies
      of the clients' variables [z] are the clients'. *)
  Theorem C37_fedlt_copies sch sol K a rho x0 z0 : clients <> [] -> proper sch -> reliable e ->
    exists Z ZS, throughout t period (fed N (fedlt_init t sv x0 z0) (fed_round t e sv (fedlt_alg t sv grad prox sol K a rho) sch)) w
        (fun k st => (forall i, In i clients -> aux_is st i "z" (Z k i)) /\ auxmap_is st sv "z_by_client" (client_rows t (ZS k))) /\
      forall k i, (k <= N)%nat -> In i clients -> ZS k i = Z k i.
  Proof.
    intros NE PR RE. destruct (C37_fedlt_run sch sol K a rho x0 z0 PR (reliable_faithful e RE)) as (X & Z & ZS & T & I & R). exists Z, ZS. split.
    - eapply throughout_mono; [|exact T]. now intros k st (_ & H & H').
    - apply (fedlt_rows_equal t e N X Z ZS sch RE).
      + intro i. destruct (I i) as (_ & -> & ->). reflexivity.
      + intros k Hk. destruct (R k Hk) as (P & Q & PA & _ & _ & A & B & C). exists P, Q. auto.
  Qed.

  (** FedPD on a reliable synchronous network: after a round with communication
      every client's center is the server's state, the average of the candidates. *)
  Theorem C37_fedpd_consensus steps a eta coin x0 : clients <> [] -> synchronous e ->
    exists X L C, throughout t period (fed N (fedpd_init t sv x0) (fedpd_round t e sv grad steps a eta coin)) w
        (fun k st => (forall i, In i (t_nodes t) -> state_is st i (X k i)) /\
           forall i, In i clients -> aux_is st i "lambda" (L k i) /\ aux_is st i "center" (C k i)) /\
      forall k, (k < N)%nat -> coin k = true ->
        X (S k) sv = mean_over clients (fun i => vadd (X (S k) i) (vscal eta (L (S k) i))) /\
        forall i, In i clients -> C (S k) i = X (S k) sv.
  Proof.
    intros NE SY. destruct (C37_fedpd_run steps a eta coin x0 (reliable_faithful e (proj1 SY))) as (X & L & C & T & I & R). exists X, L, C. split; [auto|].
    intros k Hk CO. destruct (R k Hk) as (P & Q & PA & _ & _ & _ & A). destruct (sync_part t e P Q SY PA) as (-> & ->).
    destruct (A CO NE) as (A1 & A2). split; auto. intros i Hi. destruct (A2 i Hi) as [H|(H & _)]; auto. now destruct SY.
  Qed.

End Run.

(** ** C38 *)
Section Variates.
  Variables (t : topo) (e : env vec) (sv : agent_id).
  Hypothesis NET : fed_net t e sv.
  Variables (period : agent_id -> nat) (N : nat) (w : world vec nat).
  Variable grad : nat -> agent_id -> vec -> vec.
  Notation clients := (agents t).
  Hypothesis NE : clients <> [].

  (** Reliable messages, any activity and selection: the server's control variate
      is the mean of the clients' throughout. *)
  Theorem C38_scaffold_mean sch K a eta x0 c0 : proper sch -> reliable e -> c0 sv = mean_over clients c0 ->
    exists C, throughout t period (fed N (scaffold_init t sv x0 c0) (fed_round t e sv (scaffold_alg t grad K a eta) sch)) w
        (fun k st => aux_is st sv "c" (C k sv) /\ forall i, In i clients -> aux_is st i "c_i" (C k i)) /\
      (forall i, C 0%nat i = c0 i) /\
      forall k, (k <= N)%nat -> C k sv = mean_over clients (C k).
  Proof.
    intros PR RE M0. destruct (C37_scaffold_run t e sv NET period N w grad sch K a eta x0 c0 PR (reliable_faithful e RE)) as (X & C & T & I & R).
    exists C. split; [|split].
    - eapply throughout_mono; [|exact T]. now intros k st (_ & H).
    - intro i. apply I.
    - intros k Hk. apply (drift_mean t sv). apply (drift_zero t e sv NET NE N C sch RE); auto.
      + apply mean_drift with (c0 := c0); auto. intro. apply I.
      + intros j Hj. destruct (R j Hj) as (P & Q & PA & _ & OU & _ & _ & U). exists P, Q. split; [auto|]. split; [|auto]. intros. now apply OU.
  Qed.

  (** With drops, exactly the changes of the clients whose upload was lost are
      missing. *)
  Theorem C38_scaffold_drift sch K a eta x0 c0 : proper sch -> faithful e ->
    exists C, throughout t period (fed N (scaffold_init t sv x0 c0) (fed_round t e sv (scaffold_alg t grad K a eta) sch)) w
        (fun k st => aux_is st sv "c" (C k sv) /\ forall i, In i clients -> aux_is st i "c_i" (C k i)) /\
      forall k, (k < N)%nat -> exists P R, participation t e sch P R /\
        vsub (C (S k) sv) (mean_over clients (C (S k))) =
        vsub (vsub (C k sv) (mean_over clients (C k)))
          (vscal (/ INR (length clients)) (sum_over (filter (fun i => negb (memb i R)) P) (fun i => vsub (C (S k) i) (C k i)))).
  Proof.
    intros PR FA. destruct (C37_scaffold_run t e sv NET period N w grad sch K a eta x0 c0 PR FA) as (X & C & T & I & R).
    exists C. split.
    - eapply throughout_mono; [|exact T]. now intros k st (_ & H).
    - intros k Hk. destruct (R k Hk) as (P & Q & PA & _ & OU & _ & _ & U). exists P, Q. split; [auto|]. destruct PA as (P1 & P2 & P3 & P4 & _).
      apply (drift_step t e sv NET C k P Q NE P1 P2 P3 P4); auto. intros; now apply OU.
  Qed.

  (** Zero control variates: the first round is a round of FedAvg (server step
      size one), whoever takes part. *)
  Theorem C38_scaffold_first_round sch K a x0 : proper sch -> faithful e -> (0 < N)%nat ->
    exists X, throughout t period (fed N (scaffold_init t sv x0 (fun _ => vzero)) (fed_round t e sv (scaffold_alg t grad K a 1) sch)) w
        (fun k st => forall i, In i (t_nodes t) -> state_is st i (X k i)) /\
      (forall i, X 0%nat i = x0 i) /\
      exists P R, participation t e sch P R /\
        (forall i, In i P -> exists s, local_steps grad i (fun y g => vsub y (vscal a g)) K (X 0%nat sv) (X 1%nat i) s) /\
        (forall i, In i clients -> ~ In i P -> X 1%nat i = X 0%nat i) /\
        (R = [] -> X 1%nat sv = X 0%nat sv) /\ (R <> [] -> X 1%nat sv = mean_over R (X 1%nat)).
  Proof.
    intros PR FA HN. destruct (C37_scaffold_run t e sv NET period N w grad sch K a 1 x0 (fun _ => vzero) PR FA) as (X & C & T & I & R).
    exists X. split; [|split].
    - eapply throughout_mono; [|exact T]. now intros k st (H & _).
    - intro; apply I.
    - destruct (R 0%nat HN) as (P & Q & PA & LO & OU & E0 & E1 & _). exists P, Q. split; [auto|].
      destruct (scaffold_first sv grad X C K a P Q) as (A & B); [intro; apply I|intros; now apply LO|auto|]. split; [auto|]. split; [intros; now apply OU|]. auto.
  Qed.

  (** One local step, reliable and synchronous: gradient descent on the average,
      the clients' control variates being their last gradients; with server step
      size one and exact gradients the server's states are FedAvg's in all rounds. *)
  Theorem C38_scaffold_one_step a eta x0 c0 : synchronous e -> a <> 0 -> c0 sv = mean_over clients c0 ->
    exists X C G, throughout t period (fed N (scaffold_init t sv x0 c0) (fed_round t e sv (scaffold_alg t grad 1 a eta) None)) w
        (fun k st => (forall i, In i (t_nodes t) -> state_is st i (X k i)) /\ aux_is st sv "c" (C k sv) /\ forall i, In i clients -> aux_is st i "c_i" (C k i)) /\
      (forall i, X 0%nat i = x0 i) /\
      forall k, (k < N)%nat -> (forall i, In i clients -> gradient_of grad i (X k sv) (G k i) /\ C (S k) i = G k i) /\
        X (S k) sv = vsub (X k sv) (vscal (eta * a) (mean_over clients (G k))).
  Proof. exact (scaffold_gd t e sv NET NE period N w grad a eta x0 c0). Qed.

  Theorem C38_scaffold_fedavg a x0 c0 : synchronous e -> deterministic grad -> a <> 0 -> c0 sv = mean_over clients c0 ->
    exists X X', throughout t period (fed N (scaffold_init t sv x0 c0) (fed_round t e sv (scaffold_alg t grad 1 a 1) None)) w (fun k st => state_is st sv (X k)) /\
      throughout t period (fed N (fedavg_init t sv x0) (fed_round t e sv (fedavg_alg grad 1 a) None)) w (fun k st => state_is st sv (X' k)) /\
      forall k, (k <= N)%nat -> X k = X' k.
  Proof. exact (scaffold_fedavg t e sv NET NE period N w grad a x0 c0). Qed.

  (** The default control variates satisfy the invariant: a server entry missing
      from the given dictionary is the mean of the clients'. *)
  Theorem C38_inferred_server c0 : inferred_server t c0 = mean_over clients c0.
  Proof.
    clear. unfold inferred_server, mean_over. apply functional_extensionality. intro c. unfold vscal. f_equal.
    assert (Q : forall l (z : vec), fold_left vadd (map c0 l) z c = z c + rsum (map (fun i => c0 i c) l)); [|rewrite Q; unfold vzero; lra].
    induction l as [|q l IH]; intro z; cbn [map fold_left]; [unfold rsum; cbn; lra|]. rewrite IH, rsum_cons. unfold vadd. lra.
  Qed.

  (** FedDyn: the server's [h] is the mean of the clients' [g] in the same sense. *)
  Theorem C38_feddyn_mean sch K a al x0 : proper sch -> reliable e ->
    exists G, throughout t period (fed N (feddyn_init t sv x0) (fed_round t e sv (feddyn_alg t grad K a al) sch)) w
        (fun k st => aux_is st sv "h" (G k sv) /\ forall i, In i clients -> aux_is st i "g" (G k i)) /\
      forall k, (k <= N)%nat -> G k sv = mean_over clients (G k).
  Proof.
    intros PR RE. destruct (C37_feddyn_run t e sv NET period N w grad sch K a al x0 PR (reliable_faithful e RE)) as (X & G & T & I & R).
    exists G. split.
    - eapply throughout_mono; [|exact T]. now intros k st (_ & H).
    - intros k Hk. apply (drift_mean t sv). apply (drift_zero t e sv NET NE N G sch RE); auto.
      + apply mean_drift with (c0 := fun _ => vzero); [intro; apply I|]. apply functional_extensionality. intro c. unfold mean_over, vzero. rewrite rsum_const. lra.
      + intros j Hj. destruct (R j Hj) as (P & Q & PA & _ & OU & U & _). exists P, Q. split; [auto|]. split; [|auto]. intros. now apply OU.
  Qed.
End Variates.

(** ** C39 *)
Section Reduce.
  Variables (t : topo) (e : env vec) (sv : agent_id).
  Variables (period : agent_id -> nat) (N : nat) (w : world vec nat).
  Variable grad : nat -> agent_id -> vec -> vec.
  Notation clients := (agents t).

  (** FedProx without penalty is FedAvg: the same run, whatever the network does. *)
  Theorem C39_fedprox_zero sch K a x0 :
    run t period (fed N (fedavg_init t sv x0) (fed_round t e sv (fedprox_alg grad K a 0) sch)) 0 w =
    run t period (fed N (fedavg_init t sv x0) (fed_round t e sv (fedavg_alg grad K a) sch)) 0 w.
  Proof. now rewrite fedprox_zero. Qed.

  Hypothesis NET : fed_net t e sv.
  (** FedOpt without momentum ([beta_1 = 0]) and with zero second moment, server
      step size equal to [epsilon]: every round is a round of FedAvg (the last
      conditions are those of [C37_fedavg_run]). *)
  Theorem C39_fedopt_identity sch K a eps Phi x0 : proper sch -> faithful e -> eps <> 0 -> (forall v D c, Phi v D c = 0) ->
    exists X, throughout t period (fed N (fedopt_init t sv x0) (fed_round t e sv (fedopt_alg grad K a 0 eps eps Phi) sch)) w (fun k st => forall i, In i (t_nodes t) -> state_is st i (X k i)) /\
      (forall i, X 0%nat i = x0 i) /\
      forall k, (k < N)%nat -> exists P R, participation t e sch P R /\
        (forall i, In i P -> exists s, local_steps grad i (fun y g => vsub y (vscal a g)) K (X k sv) (X (S k) i) s) /\
        (forall i, In i clients -> ~ In i P -> X (S k) i = X k i) /\
        (R = [] -> X (S k) sv = X k sv) /\ (R <> [] -> X (S k) sv = mean_over R (X (S k))).
  Proof. exact (fedopt_identity t e sv NET period N w grad sch K a eps Phi x0). Qed.

  (** Any second moment rule: within a relative [sqrt(v) / epsilon] of FedAvg's
      average. *)
  Theorem C39_fedopt_near sch K a eps Phi x0 : proper sch -> faithful e -> 0 < eps ->
    exists X v, throughout t period (fed N (fedopt_init t sv x0) (fed_round t e sv (fedopt_alg grad K a 0 eps eps Phi) sch)) w
       (fun k st => (forall i, In i (t_nodes t) -> state_is st i (X k i)) /\ aux_is st sv "v" (v k)) /\
      (forall i, X 0%nat i = x0 i) /\ v 0%nat = vzero /\
      forall k, (k < N)%nat -> exists P R, participation t e sch P R /\
        (forall i, In i P -> exists s, local_steps grad i (fun y g => vsub y (vscal a g)) K (X k sv) (X (S k) i) s) /\
        (R <> [] -> forall c, Rabs (X (S k) sv c - mean_over R (X (S k)) c) <= Rabs (mean_over R (X (S k)) c - X k sv c) * (sqrt (v (S k) c) / eps)).
  Proof. exact (fedopt_near t e sv NET period N w grad sch K a eps Phi x0). Qed.

  (** FedNova, equally many local steps, no momentum and penalty: the average with
      weights proportional to the sample counts ... *)
  Theorem C39_fednova_weights sch K count a x0 : proper sch -> faithful e -> (1 <= K)%nat -> (forall i, In i clients -> 0 < count i) ->
    exists X, throughout t period (fed N (fedavg_init t sv x0) (fed_round t e sv (fednova_alg grad (fun _ => K) count a None None None) sch)) w (fun k st => forall i, In i (t_nodes t) -> state_is st i (X k i)) /\
      (forall i, X 0%nat i = x0 i) /\
      forall k, (k < N)%nat -> exists P R, participation t e sch P R /\
        (forall i, In i P -> exists s, local_steps grad i (fun y g => vsub y (vscal a g)) K (X k sv) (X (S k) i) s) /\
        (forall i, In i clients -> ~ In i P -> X (S k) i = X k i) /\
        (R = [] -> X (S k) sv = X k sv) /\
        (R <> [] -> X (S k) sv = fun c => rsum (map (fun i => count i / rsum (map count R) * X (S k) i c) R)).
  Proof. exact (fednova_average t e sv NET period N w grad sch K count a x0). Qed.
  (** ... and with equal counts every round is a round of FedAvg. *)
  Theorem C39_fednova_equal sch K count q a x0 : proper sch -> faithful e -> (1 <= K)%nat -> 0 < q -> (forall i, In i clients -> count i = q) ->
    exists X, throughout t period (fed N (fedavg_init t sv x0) (fed_round t e sv (fednova_alg grad (fun _ => K) count a None None None) sch)) w (fun k st => forall i, In i (t_nodes t) -> state_is st i (X k i)) /\
      (forall i, X 0%nat i = x0 i) /\
      forall k, (k < N)%nat -> exists P R, participation t e sch P R /\
        (forall i, In i P -> exists s, local_steps grad i (fun y g => vsub y (vscal a g)) K (X k sv) (X (S k) i) s) /\
        (forall i, In i clients -> ~ In i P -> X (S k) i = X k i) /\
        (R = [] -> X (S k) sv = X k sv) /\ (R <> [] -> X (S k) sv = mean_over R (X (S k))).
  Proof. exact (fednova_fedavg t e sv NET period N w grad sch K count q a x0). Qed.

  Hypothesis NE : clients <> [].
  (** With exact gradients on a reliable synchronous network the trajectories of
      all agents are FedAvg's. *)
  Theorem C39_fednova_fedavg K count q a x0 : synchronous e -> deterministic grad -> (1 <= K)%nat -> 0 < q -> (forall i, In i clients -> count i = q) ->
    exists X X', throughout t period (fed N (fedavg_init t sv x0) (fed_round t e sv (fednova_alg grad (fun _ => K) count a None None None) None)) w (fun k st => forall i, In i (t_nodes t) -> state_is st i (X k i)) /\
      throughout t period (fed N (fedavg_init t sv x0) (fed_round t e sv (fedavg_alg grad K a) None)) w (fun k st => forall i, In i (t_nodes t) -> state_is st i (X' k i)) /\
      forall k, (k <= N)%nat -> forall i, In i (t_nodes t) -> X k i = X' k i.
  Proof.
    intros SY DE HK Q0 CQ. pose proof (reliable_faithful e (proj1 SY)) as FA.
    destruct (C39_fednova_equal None K count q a x0 proper_none FA HK Q0 CQ) as (X & T & I & R).
    destruct (C37_fedavg_run t e sv NET period N w grad None K a x0 proper_none FA) as (X' & T' & I' & R').
    exists X, X'. split; [auto|]. split; [auto|]. exact (sync_equal t e sv NET NE N grad K a x0 X X' SY DE I I' R R').
  Qed.
  Theorem C39_fedopt_fedavg K a eps Phi x0 : synchronous e -> deterministic grad -> eps <> 0 -> (forall v D c, Phi v D c = 0) ->
    exists X X', throughout t period (fed N (fedopt_init t sv x0) (fed_round t e sv (fedopt_alg grad K a 0 eps eps Phi) None)) w (fun k st => forall i, In i (t_nodes t) -> state_is st i (X k i)) /\
      throughout t period (fed N (fedavg_init t sv x0) (fed_round t e sv (fedavg_alg grad K a) None)) w (fun k st => forall i, In i (t_nodes t) -> state_is st i (X' k i)) /\
      forall k, (k <= N)%nat -> forall i, In i (t_nodes t) -> X k i = X' k i.
  Proof.
    intros SY DE EP PH. pose proof (reliable_faithful e (proj1 SY)) as FA.
    destruct (C39_fedopt_identity None K a eps Phi x0 proper_none FA EP PH) as (X & T & I & R).
    destruct (C37_fedavg_run t e sv NET period N w grad None K a x0 proper_none FA) as (X' & T' & I' & R').
    exists X, X'. split; [auto|]. split; [auto|]. exact (sync_equal t e sv NET NE N grad K a x0 X X' SY DE I I' R R').
  Qed.
End Reduce.

(** FedAdam, FedYogi and FedAdagrad have no such settings: for all admissible
    parameters there are costs for which the server's state after one round differs
    from FedAvg's, on every reliable synchronous network. *)
Theorem C39_adaptive_refuted t e sv period w K a b1 b2 eps eta Phi :
  fed_net t e sv -> agents t <> [] -> synchronous e -> (1 <= K)%nat -> 0 < a -> 0 < eps -> 0 < eta -> 0 <= b1 < 1 -> 0 <= b2 < 1 ->
  Phi = adam_moment b2 \/ Phi = yogi_moment b2 \/ Phi = adagrad_moment ->
  exists grad x y, deterministic grad /\
    state_is (snd (r_world (run t period (fed 1 (fedopt_init t sv (fun _ => vzero)) (fed_round t e sv (fedopt_alg grad K a b1 eps eta Phi) None)) 0 w))) sv x /\
    state_is (snd (r_world (run t period (fed 1 (fedavg_init t sv (fun _ => vzero)) (fed_round t e sv (fedavg_alg grad K a) None)) 0 w))) sv y /\
    x <> y.
Proof.
  intros NET NE SY HK A0 EP _ _ B2 HP. pose proof (reliable_faithful e (proj1 SY)) as FA.
  set (grad := fun (_ : nat) (_ : agent_id) (_ : vec) (c : nat) => - (INR c + 1) / (INR K * a)).
  destruct (C37_fedopt_run t e sv NET period 1 w grad None K a b1 eps eta Phi (fun _ => vzero) proper_none FA) as (X & m & v & (_ & _ & _ & (F & _)) & _).
  destruct (C37_fedavg_run t e sv NET period 1 w grad None K a (fun _ => vzero) proper_none FA) as (X' & (_ & _ & _ & F') & _).
  assert (Isv : In sv (t_nodes t)) by (eapply sv_node; eauto).
  exists grad, (X 1%nat sv), (X' 1%nat sv). split; [intros n n' i x; reflexivity|]. split; [exact (F sv Isv)|]. split; [exact (F' sv Isv)|].
  assert (SQ : forall s (D : vec) c, 0 <= s -> sqrt s * sqrt s * (D c * D c) = s * (D c * D c)) by (intros; now rewrite sqrt_sqrt).
  destruct HP as [->|[->| ->]].
  - apply (adaptive_differs t e sv NET NE period 1 w grad K a b1 eps eta (adam_moment b2) (sqrt (1 - b2)) SY HK A0 EP); auto.
    + apply sqrt_lt_R0. lra.
    + intros D c. rewrite (SQ (1 - b2) D c) by lra. unfold adam_moment, vadd, vscal, vmul, vzero. lra.
  - apply (adaptive_differs t e sv NET NE period 1 w grad K a b1 eps eta (yogi_moment b2) (sqrt (1 - b2)) SY HK A0 EP); auto.
    + apply sqrt_lt_R0. lra.
    + intros D c. rewrite (SQ (1 - b2) D c) by lra. unfold yogi_moment, vsub, vscal, vmul, vzero, vsign, sgn.
      pose proof (Rle_0_sqr (D c)) as S. unfold Rsqr in S. destruct (Rlt_dec 0 (0 - D c * D c)); [lra|]. destruct (Rlt_dec (0 - D c * D c) 0); [lra|].
      assert (Z : D c * D c = 0) by lra. rewrite Z. lra.
  - apply (adaptive_differs t e sv NET NE period 1 w grad K a b1 eps eta adagrad_moment 1 SY HK A0 EP); auto; [lra|].
    intros D c. unfold adagrad_moment, vadd, vmul, vzero. lra.
Qed.

(** ** C40 *)
(** Every modelled federated algorithm with any parameters, any network conduct,
    any sequence of calls: [Sel k] are the clients selected in iteration [k] (what
    the scheme returns for the active clients). *)
Theorem C40_counts t e sv period grad prox sch N A w : wf_topo t -> proper sch -> fed_class t e grad prox sv sch N A ->
  let r := run t period A 0 w in r_out r = Finished ->
  exists Sel, (forall k w', In (CStep k w') (r_calls r) -> selects t e sch k w' (Sel k)) /\
    (forall k, (k < N)%nat -> NoDup (Sel k) /\ incl (Sel k) (agents t)) /\
    forall i, In i (agents t) -> a_nsel (n_agents (snd (r_world r)) i) = length (filter (fun k => memb i (Sel k)) (seq 0 N)).
Proof. exact (class_counts t e sv period grad prox sch N A w). Qed.
Theorem C40_fraction t e sv period grad prox sch N A w : wf_topo t -> proper sch -> fed_class t e grad prox sv sch N A ->
  (1 <= N)%nat -> agents t <> [] ->
  let r := run t period A 0 w in r_out r = Finished ->
  exists q, fraction_selected t (snd (r_world r)) = Ok (Some q) /\ 0 <= q <= 1 /\
    q * (INR N * INR (length (agents t))) = INR (fold_left Nat.add (map (fun i => a_nsel (n_agents (snd (r_world r)) i)) (agents t)) O).
Proof. exact (class_fraction t e sv period grad prox sch N A w). Qed.

(** ** Cases *)
From Verif.Props Require Import P2PProps.
(** server 2, clients 0 and 1 *)
Definition star3 : topo := mkTopo [2%nat; 0%nat; 1%nat] (fun a => match a with O => [2%nat] | 1%nat => [2%nat] | 2%nat => [0%nat; 1%nat] | _ => [] end) (Some 2%nat) 1.
Lemma star3_wf : wf_topo star3.
Proof.
  split; [repeat constructor; cbn; intuition; discriminate|]. split; [|split].
  - intros [|[|[|a]]] b; cbn; intuition; subst; cbn; auto.
  - intros [|[|[|a]]]; cbn; repeat constructor; cbn; intuition; discriminate.
  - split; [cbn; auto|]. intros a b. cbn [star3 t_nodes t_adj]. split.
    + intro H. destruct a as [|[|[|a]]]; cbn in H; intuition; subst; cbn; auto; lia.
    + intros (Ha & Hb & C). cbn in Ha, Hb. destruct Ha as [<-|[<-|[<-|[]]]], Hb as [<-|[<-|[<-|[]]]]; cbn; intuition; try lia; try discriminate.
Qed.
(** client 1 inactive in even iterations, every third message lost *)
Definition lossy_fed : env vec :=
  mkEnv (fun _ a k => negb (Nat.eqb a 1 && Nat.even k)) (fun d _ => Nat.eqb (Nat.modulo d 3) 1) (fun _ _ v => v) (fun _ _ => 1%Z) (fun _ _ => None) vadd.
Lemma star3_sync : fed_net star3 sync_env 2%nat. Proof. split; [apply star3_wf|]. split; reflexivity. Qed.
Lemma star3_lossy : fed_net star3 lossy_fed 2%nat. Proof. split; [apply star3_wf|]. split; reflexivity. Qed.
Lemma lossy_fed_ok : faithful lossy_fed. Proof. split; reflexivity. Qed.
Lemma star3_clients : agents star3 = [0%nat; 1%nat]. Proof. reflexivity. Qed.
Lemma star3_ne : agents star3 <> []. Proof. discriminate. Qed.
(** a scheme that selects the first of the active clients *)
Definition first_only : option scheme := Some (fun _ l _ => match l with [] => [] | i :: _ => [i] end).
Lemma first_proper : proper first_only.
Proof. intros f d l k [= <-] ND NE. destruct l as [|i l]; [congruence|]. split; [repeat constructor; cbn; tauto|]. intros x [<-|[]]. now left. Qed.

(** C37, one round: the states the round theorems ask for. *)
Definition fed_start : net vec := state_with start (fun i =>
  [("m", AArr vzero); ("v", AArr vzero); ("c", AArr vzero); ("c_i", AArr (start i)); ("h", AArr vzero); ("g", AArr vzero);
   ("z_by_client", AMap (client_rows star3 start)); ("z", AArr (start i)); ("lambda", AArr vzero); ("center", AArr (start 2%nat))]%string).
Example C37_round_case :
  state_is fed_start 2%nat (start 2%nat) /\ aux_is fed_start 2%nat "m" vzero /\ aux_is fed_start 2%nat "v" vzero /\ aux_is fed_start 2%nat "c" vzero /\ aux_is fed_start 2%nat "h" vzero /\
  auxmap_is fed_start 2%nat "z_by_client" (client_rows star3 start) /\
  (forall i, In i (agents star3) -> state_is fed_start i (start i) /\ aux_is fed_start i "c_i" (start i) /\ aux_is fed_start i "g" vzero /\
     aux_is fed_start i "z" (start i) /\ aux_is fed_start i "lambda" vzero /\ aux_is fed_start i "center" (start 2%nat)) /\
  active_at star3 lossy_fed 0 fed_start = [0%nat] /\ active_at star3 lossy_fed 1 fed_start = [0%nat; 1%nat].
Proof. repeat split. Qed.
Example C37_fedavg_round_case : exists st' P R B Y M,
  round_result star3 lossy_fed 2%nat (fedavg_alg qgrad 3 (1/2)) first_only 1 0 0 fed_start st' P /\ uploaded lossy_fed 2%nat st' P dflt R /\
  (forall i, In i P -> got lossy_fed 2%nat st' i (B i) (start 2%nat) /\ (exists s, local_steps qgrad i (fun y g => vsub y (vscal (1/2) g)) 3 (B i) (Y i) s) /\ state_is st' i (Y i)) /\
  (forall i, In i R -> delivered lossy_fed 2%nat st' dflt i (M i) (Y i)) /\
  (R = [] -> state_is st' 2%nat (start 2%nat)) /\ (R <> [] -> state_is st' 2%nat (mean_over R M)).
Proof. apply (C37_fedavg_round star3 lossy_fed 2%nat star3_lossy qgrad first_only 3 (1/2) 1 0 fed_start (start 2%nat) first_proper). reflexivity. Qed.
Example C37_fednova_case : forall i, In i (agents star3) -> 0 < fst (nova_coeff (1/10) (Some (9/10)) (Some 1) (S i)).
Proof. intros i H. cbn in H. destruct H as [<-|[<-|[]]]; cbn; lra. Qed.
(** two rounds of FedAvg from 2 towards the mean of the minima 3 and 0 *)
Example C37_fedavg_run_case : exists x,
  state_is (snd (r_world (run star3 (fun _ => 1%nat) (fed 2%nat (fedavg_init star3 2%nat start) (fed_round star3 sync_env 2%nat (fedavg_alg qgrad 1 (1/2)) None)) 0 blank))) 2%nat x /\ x 0%nat = 13/8.
Proof. eexists. split; [cbv - [Rplus Rmult Rminus Ropp Rdiv Rinv IZR]; reflexivity|]. cbv - [Rplus Rmult Rminus Ropp Rdiv Rinv IZR]. field. Qed.

(** C38: client 1 starts from 1, so the server starts from 1/2. *)
Example C38_scaffold_case (c0 := fun i => if Nat.eqb i 2 then inferred_server star3 start else start i) :
  c0 2%nat = mean_over (agents star3) c0 /\ c0 2%nat 0%nat = 1/2 /\ reliable sync_env.
Proof.
  split; [|split; [|repeat split]].
  - unfold c0 at 1. cbn [Nat.eqb]. rewrite C38_inferred_server. reflexivity.
  - unfold c0. cbv - [Rplus Rmult Rminus Ropp Rdiv Rinv IZR]. field.
Qed.
(** After one round in which the upload of client 0 is lost the server's control
    variate is not the mean of the clients'. *)
Definition drop0 : env vec := mkEnv (fun _ _ _ => true) (fun _ a => Nat.eqb a 0) (fun _ _ v => v) (fun _ _ => 1%Z) (fun _ _ => None) vadd.
Theorem C38_lossy_refuted :
  ~ (forall t e sv period N w grad sch K a eta x0 c0 i, fed_net t e sv -> faithful e -> always_active e -> proper sch -> (1 <= K)%nat -> 0 < a -> c0 sv = mean_over (agents t) c0 ->
      let st := snd (r_world (run t period (fed N (scaffold_init t sv x0 c0) (fed_round t e sv (scaffold_alg t grad K a eta) sch)) 0 w)) in
      forall c C, aux_is st sv "c" c -> (forall i, In i (agents t) -> aux_is st i "c_i" (C i)) -> c i = mean_over (agents t) C i).
Proof.
  intro H. specialize (H star3 drop0 2%nat (fun _ => 1%nat) 1%nat blank (fun _ _ _ _ => 1) None 1%nat 1 1 (fun _ => vzero) (fun _ => vzero) 0%nat).
  specialize (H ltac:(split; [apply star3_wf|split; reflexivity]) ltac:(split; reflexivity) ltac:(intros d a k; reflexivity) proper_none (le_n 1) Rlt_0_1).
  specialize (H ltac:(apply functional_extensionality; intro; unfold mean_over, vzero; rewrite rsum_const; lra)).
  cbn zeta in H. set (st := snd _) in H.
  assert (A : exists c, aux_is st 2%nat "c" c /\ c 0%nat = 1/2).
  { eexists. split; [cbv - [Rplus Rmult Rminus Ropp Rdiv Rinv IZR]; reflexivity|]. cbv - [Rplus Rmult Rminus Ropp Rdiv Rinv IZR]. field. }
  assert (B : forall i, In i (agents star3) -> exists c, aux_is st i "c_i" c /\ c 0%nat = 1).
  { intros i Hi. cbn in Hi. destruct Hi as [<-|[<-|[]]]; eexists; (split; [cbv - [Rplus Rmult Rminus Ropp Rdiv Rinv IZR]; reflexivity|]); cbv - [Rplus Rmult Rminus Ropp Rdiv Rinv IZR]; field. }
  destruct A as (c & A1 & A2). destruct (list_choice vzero (agents star3) (fun i c => aux_is st i "c_i" c /\ c 0%nat = 1) B) as (C & HC).
  specialize (H c C A1 (fun i Hi => proj1 (HC i Hi))). unfold mean_over in H. rewrite (map_ext_in _ (fun _ => 1)) in H by (intros i Hi; now apply HC).
  rewrite rsum_const, A2 in H. cbn in H. lra.
Qed.

(** C39 *)
Example C39_fedprox_case :
  run star3 (fun _ => 1%nat) (fed 10%nat (fedavg_init star3 2%nat start) (fed_round star3 lossy_fed 2%nat (fedprox_alg qgrad 3 (1/2) 0) first_only)) 0 blank =
  run star3 (fun _ => 1%nat) (fed 10%nat (fedavg_init star3 2%nat start) (fed_round star3 lossy_fed 2%nat (fedavg_alg qgrad 3 (1/2)) first_only)) 0 blank.
Proof. apply C39_fedprox_zero. Qed.
Example C39_fednova_case : exists X X',
  throughout star3 (fun _ => 1%nat) (fed 10%nat (fedavg_init star3 2%nat start) (fed_round star3 sync_env 2%nat (fednova_alg qgrad (fun _ => 5%nat) (fun _ => 20) (1/10) None None None) None)) blank (fun k st => forall i, In i (t_nodes star3) -> state_is st i (X k i)) /\
  throughout star3 (fun _ => 1%nat) (fed 10%nat (fedavg_init star3 2%nat start) (fed_round star3 sync_env 2%nat (fedavg_alg qgrad 5 (1/10)) None)) blank (fun k st => forall i, In i (t_nodes star3) -> state_is st i (X' k i)) /\
  forall k, (k <= 10)%nat -> forall i, In i (t_nodes star3) -> X k i = X' k i.
Proof. apply (C39_fednova_fedavg star3 sync_env 2%nat (fun _ => 1%nat) 10 blank qgrad star3_sync star3_ne 5 (fun _ => 20) 20 (1/10) start sync_ok); [now intros|lia|lra|reflexivity]. Qed.
Example C39_fedopt_case : exists X X',
  throughout star3 (fun _ => 1%nat) (fed 10%nat (fedopt_init star3 2%nat start) (fed_round star3 sync_env 2%nat (fedopt_alg qgrad 5 (1/10) 0 (1/1000) (1/1000) (fun _ _ => vzero)) None)) blank (fun k st => forall i, In i (t_nodes star3) -> state_is st i (X k i)) /\
  throughout star3 (fun _ => 1%nat) (fed 10%nat (fedavg_init star3 2%nat start) (fed_round star3 sync_env 2%nat (fedavg_alg qgrad 5 (1/10)) None)) blank (fun k st => forall i, In i (t_nodes star3) -> state_is st i (X' k i)) /\
  forall k, (k <= 10)%nat -> forall i, In i (t_nodes star3) -> X k i = X' k i.
Proof. apply (C39_fedopt_fedavg star3 sync_env 2%nat (fun _ => 1%nat) 10 blank qgrad star3_sync star3_ne 5 (1/10) (1/1000) (fun _ _ => vzero) start sync_ok); [now intros|lra|reflexivity]. Qed.

(** C40: four iterations; client 1 is inactive in the even ones. *)
Definition case40 : alg vec nat := fed 4 (fedavg_init star3 2%nat start) (fed_round star3 lossy_fed 2%nat (fedavg_alg qgrad 1 (1/2)) None).
Lemma case40_class : fed_class star3 lossy_fed qgrad qprox 2%nat None 4 case40.
Proof. apply cl_fedavg. Qed.
Lemma case40_out : r_out (run star3 (fun _ => 1%nat) case40 0 blank) = Finished.
Proof. cbv - [Rplus Rmult Rminus Ropp Rdiv Rinv IZR]. reflexivity. Qed.
Lemma case40_0 : a_nsel (n_agents (snd (r_world (run star3 (fun _ => 1%nat) case40 0 blank))) 0%nat) = 4%nat.
Proof. cbv - [Rplus Rmult Rminus Ropp Rdiv Rinv IZR]. reflexivity. Qed.
Lemma case40_1 : a_nsel (n_agents (snd (r_world (run star3 (fun _ => 1%nat) case40 0 blank))) 1%nat) = 2%nat.
Proof. cbv - [Rplus Rmult Rminus Ropp Rdiv Rinv IZR]. reflexivity. Qed.
Example C40_case : exists q, fraction_selected star3 (snd (r_world (run star3 (fun _ => 1%nat) case40 0 blank))) = Ok (Some q) /\ q = 6 / 8.
Proof.
  destruct (C40_fraction star3 lossy_fed 2%nat (fun _ => 1%nat) qgrad qprox None 4 case40 blank star3_wf proper_none case40_class ltac:(lia) star3_ne case40_out) as (q & F & _ & E).
  pose proof case40_0 as A. pose proof case40_1 as B. generalize dependent (snd (r_world (run star3 (fun _ => 1%nat) case40 0 blank))). intros st F E A B.
  exists q. split; [exact F|]. rewrite star3_clients in E. cbn [map fold_left] in E. rewrite A, B in E. cbn in E. lra.
Qed.

(** A run that raises may report a fraction above one: the client is selected
    in the iteration that raises, which no snapshot has recorded. Here the uploads
    of iteration 0 are lost and in iteration 1 FedNova rejects the normaliser
    (its coefficient is negative for these step size and penalty). *)
Definition star2 : topo := mkTopo [1%nat; 0%nat] (fun a => match a with O => [1%nat] | 1%nat => [0%nat] | _ => [] end) (Some 1%nat) 1.
Lemma star2_wf : wf_topo star2.
Proof.
  split; [repeat constructor; cbn; intuition; discriminate|]. split; [|split].
  - intros [|[|a]] b; cbn; intuition; subst; cbn; auto.
  - intros [|[|a]]; cbn; repeat constructor; cbn; intuition; discriminate.
  - split; [cbn; auto|]. intros a b. cbn [star2 t_nodes t_adj]. split.
    + intro H. destruct a as [|[|a]]; cbn in H; intuition; subst; cbn; auto; lia.
    + intros (Ha & Hb & C). cbn in Ha, Hb. destruct Ha as [<-|[<-|[]]], Hb as [<-|[<-|[]]]; cbn; intuition; try lia; try discriminate.
Qed.
Definition late_env : env vec := mkEnv (fun _ _ _ => true) (fun d a => Nat.eqb a 0 && Nat.ltb d 12) (fun _ _ v => v) (fun _ _ => 1%Z) (fun _ _ => None) vadd.
Definition case40r : alg vec nat := fed 2 (fedavg_init star2 1%nat (fun _ => vzero)) (fed_round star2 late_env 1%nat (fednova_alg (fun _ _ _ => vzero) (fun _ => 2%nat) (fun _ => 1) 1 None (Some 3) None) None).

Section Head.
  Variables (t : topo) (e : env vec) (sv : agent_id) (A : fedalg) (sch : option scheme) (k : nat).
  Definition round_head : F (list agent_id) :=
    fbind (local sv (fun _ => f_pre A)) (fun _ => fbind (select_clients t e sch k) (fun sel => match sel with [] => fret [] | _ =>
      fbind (local sv (fun _ => f_payload A)) (fun p => fbind (sendf t e sv (RMany sel) dflt p) (fun _ => fbind (with_broadcast sv sel) (fun part =>
      match part with [] => fret [] | _ => fbind (fall part (client_round t e sv A)) (fun _ => fret part) end))) end)).
  Lemma round_split w : fed_round t e sv A sch k w = fbind round_head (fun part => match part with [] => fret tt | _ => local sv (f_agg A part) end) w.
  Proof.
    unfold fed_round, round_head, fbind. destruct (local sv (fun _ => f_pre A) w) as (w1, [u|]); auto.
    destruct (select_clients t e sch k w1) as (w2, [[|q sel]|]); auto.
    destruct (local sv (fun _ => f_payload A) w2) as (w3, [p|]); auto. destruct (sendf t e sv (RMany (q :: sel)) dflt p w3) as (w4, [u4|]); auto.
    destruct (with_broadcast sv (q :: sel) w4) as (w5, [[|b part]|]); auto. destruct (fall (b :: part) (client_round t e sv A) w5) as (w6, [u6|]); auto.
  Qed.
End Head.
Lemma nova_raises count smom part inb s i m g : In i part -> dget Nat.eqb (inb cn) i = Some m -> dget Nat.eqb (inb cg) i = Some g -> m 0%nat <= 0 ->
  fednova_agg count smom part inb s = None.
Proof.
  intros I M G L. unfold fednova_agg. set (got := filter _ part).
  assert (IG : In i got). { unfold got. apply filter_In. split; auto. apply andb_true_intro. split; unfold dmem.
    - match goal with |- match ?d with _ => _ end = true => change d with (dget Nat.eqb (inb cn) i) end. now rewrite M.
    - match goal with |- match ?d with _ => _ end = true => change d with (dget Nat.eqb (inb cg) i) end. now rewrite G. }
  assert (E : existsb (fun a => if Rle_dec a 0 then true else false) (map (fun m => m 0%nat) (msgs_of inb cn got)) = true).
  { apply existsb_exists. exists (m 0%nat). split; [|destruct (Rle_dec (m 0%nat) 0); tauto]. apply (in_map (fun m : vec => m 0%nat)). unfold msgs_of. apply in_flat_map. exists i. split; [exact IG|]. match goal with |- In _ (match ?d with _ => _ end) => change d with (dget Nat.eqb (inb cn) i) end. rewrite M. now left. }
  clearbody got. destruct got as [|q l]; [destruct IG|]. unfold lbind. destruct (getx s) as [(x, s')|]; auto. now rewrite E.
Qed.
Definition q0 : world vec nat := al_init case40r blank.
Definition q1 : world vec nat := (fst q0, step star2 0 (snd q0)).
Definition q2 : world vec nat := fst (al_step case40r 0 q1).
Definition q3 : world vec nat := (fst q2, snapshot_all star2 (fun _ => 1%nat) case40r 1 (snd q2)).
Definition q4 : world vec nat := (fst q3, step star2 1 (snd q3)).
Definition A40 := fednova_alg (fun _ _ _ => vzero) (fun _ => 2%nat) (fun _ => 1) 1 None (Some 3) None.
Definition q5 : world vec nat := fst (round_head star2 late_env 1%nat A40 None 1 q4).
Ltac crun := cbv - [Rplus Rmult Rminus Ropp Rdiv Rinv IZR Rle_dec].
Lemma q1_step : snd (al_step case40r 0 q1) = false. Proof. crun. reflexivity. Qed.
Lemma q4_head : snd (round_head star2 late_env 1%nat A40 None 1 q4) = Some [0%nat]. Proof. crun. reflexivity. Qed.
Lemma q5_msg : exists m g, dget Nat.eqb (inbox_of (snd q5) 1%nat cn) 0%nat = Some m /\ dget Nat.eqb (inbox_of (snd q5) 1%nat cg) 0%nat = Some g /\ m 0%nat = -1.
Proof. do 2 eexists. split; [crun; reflexivity|]. split; [crun; reflexivity|]. crun. ring. Qed.
Lemma q5_nsel : a_nsel (n_agents (snd q5) 0%nat) = 2%nat. Proof. crun. reflexivity. Qed.
Lemma q5_hist : observed_rounds (snd q5) (agents star2) = Ok 1%Z. Proof. crun. reflexivity. Qed.
Lemma q4_step : al_step case40r 1 q4 = (q5, true).
Proof.
  unfold case40r, fed, al_step, fstep. rewrite round_split. unfold fbind. fold A40. pose proof q4_head as H. unfold q5.
  destruct (round_head star2 late_env 1%nat A40 None 1 q4) as (w, o) eqn:E. cbn [snd] in H. subst o. cbn [fst].
  assert (Q5 : q5 = w) by (unfold q5; now rewrite E). destruct q5_msg as (m & g & M & G & V). rewrite Q5 in M, G. destruct w as (d, st). cbn [snd] in *.
  unfold local. change (f_agg A40) with (fednova_agg (fun _ => 1) None). rewrite (nova_raises _ _ _ _ _ 0%nat m g); auto; [now left|lra].
Qed.
Lemma case40r_run : run star2 (fun _ => 1%nat) case40r 0 blank = mkRes (Raised 1) [CInit blank; CStep 0 q1; CCallback 0 q3; CStep 1 q4] q5.
Proof.
  rewrite run_loop. change (al_iters case40r) with 2%nat. fold q0. cbn [loop]. change (fst q0, step star2 0 (snd q0)) with q1.
  assert (E : al_step case40r 0 q1 = (q2, false)) by (unfold q2; rewrite <- q1_step; apply surjective_pairing). rewrite E.
  change (0 + 1)%nat with 1%nat. change (fst q2, snapshot_all star2 (fun _ => 1%nat) case40r 1 (snd q2)) with q3. change (fst q3, step star2 1 (snd q3)) with q4.
  rewrite q4_step. reflexivity.
Qed.
Lemma case40r_class : fed_class star2 late_env (fun _ _ _ => vzero) qprox 1%nat None 2 case40r. Proof. apply cl_fednova. Qed.
Lemma case40r_fraction : fraction_selected star2 (snd (r_world (run star2 (fun _ => 1%nat) case40r 0 blank))) = Ok (Some 2).
Proof.
  rewrite case40r_run. cbn [r_world]. pose proof q5_hist as HI. pose proof q5_nsel as NS. revert HI NS. generalize (snd q5). intros st HI NS.
  unfold fraction_selected. rewrite HI. change (agents star2) with [0%nat]. cbn [map fold_left Z.eqb orb length Nat.add].
  rewrite NS. do 2 f_equal. cbn [Nat.add INR]. field.
Qed.
Theorem C40_raised_refuted :
  ~ (forall t e sv period grad prox sch N A w q, wf_topo t -> proper sch -> fed_class t e grad prox sv sch N A ->
      fraction_selected t (snd (r_world (run t period A 0 w))) = Ok (Some q) -> q <= 1).
Proof.
  intro H. pose proof (H star2 late_env 1%nat (fun _ => 1%nat) (fun _ _ _ => vzero) qprox None 2%nat case40r blank 2 star2_wf proper_none case40r_class case40r_fraction). lra.
Qed.


Print Assumptions C37_fedavg_round.
Print Assumptions C37_fedprox_round.
Print Assumptions C37_fedopt_round.
Print Assumptions C37_scaffold_round.
Print Assumptions C37_feddyn_round.
Print Assumptions C37_fednova_round.
Print Assumptions C37_fedlt_round.
Print Assumptions C37_fedpd_round.
Print Assumptions C37_fedavg_run.
Print Assumptions C37_fedprox_run.
Print Assumptions C37_fedopt_run.
Print Assumptions C37_scaffold_run.
Print Assumptions C37_feddyn_run.
Print Assumptions C37_fednova_run.
Print Assumptions C37_fedlt_run.
Print Assumptions C37_fedpd_run.
Print Assumptions C37_fedavg_is_gradient_descent.
Print Assumptions C37_fedlt_copies.
Print Assumptions C37_fedpd_consensus.
Print Assumptions C38_scaffold_mean.
Print Assumptions C38_scaffold_drift.
Print Assumptions C38_scaffold_first_round.
Print Assumptions C38_scaffold_one_step.
Print Assumptions C38_scaffold_fedavg.
Print Assumptions C38_inferred_server.
Print Assumptions C38_feddyn_mean.
Print Assumptions C39_fedprox_zero.
Print Assumptions C39_fedopt_identity.
Print Assumptions C39_fedopt_near.
Print Assumptions C39_fednova_weights.
Print Assumptions C39_fednova_equal.
Print Assumptions C39_fednova_fedavg.
Print Assumptions C39_fedopt_fedavg.
Print Assumptions C39_adaptive_refuted.
Print Assumptions C40_counts.
Print Assumptions C40_fraction.
Print Assumptions C38_lossy_refuted.
Print Assumptions C40_raised_refuted.
