(** Runs of FedPD; consequences of the run theorems. *)
From Coq Require Import Reals String List Bool Arith ZArith Lia Lra FunctionalExtensionality Permutation.
From Verif.Model Require Import PyDict History Messages Network Runner Vec P2P Fed.
From Verif.Spec Require Import NetworkSpec P2PSpec FedSpec.
From Verif.Proofs Require Import PyDictProofs MessagesProofs NetworkProofs NetworkInv NetworkMore NetworkActive RunnerProofs EmpiricalProofs P2PLock P2PSteps P2PRuns FedLock FedSteps FedSteps2 FedRuns FedRuns2 FedRuns3 FedReduce.
Import ListNotations.
Open Scope R_scope.

Lemma list_choice {B} (b0 : B) (l : list agent_id) (P : agent_id -> B -> Prop) :
  (forall i, In i l -> exists b, P i b) -> exists f, forall i, In i l -> P i (f i).
Proof.
  induction l as [|q l IH]; intro H; [exists (fun _ => b0); intros i []|].
  destruct IH as (f & F); [intros i Hi; apply H; now right|]. destruct (H q (or_introl eq_refl)) as (b & Hb).
  exists (fun i => if Nat.eqb i q then b else f i). intros i [<-|Hi]; [now rewrite Nat.eqb_refl|].
  destruct (Nat.eqb_spec i q) as [->|]; auto.
Qed.
Lemma proper_none : proper None. Proof. intros f d l k H. discriminate. Qed.
Lemma reliable_faithful (e : env vec) : reliable e -> faithful e. Proof. intros (_ & A & B). split; auto. Qed.
Lemma deterministic_grad grad i x g n : deterministic grad -> gradient_of grad i x g -> g = grad n i x.
Proof. intros D (m & ->). apply D. Qed.

Section Runs4.
  Variables (t : topo) (e : env vec) (sv : agent_id).
  Hypothesis NET : fed_net t e sv.
  Variables (period : agent_id -> nat) (N : nat) (w : world vec nat).
  Variable grad : nat -> agent_id -> vec -> vec.
  Variable prox : nat -> agent_id -> vec -> R -> vec.
  Notation clients := (agents t).

  Lemma fed_trace_k {St} (Inv : St -> net vec -> Prop) (Rel : nat -> St -> St -> Prop) (round : nat -> F unit) init s0 :
    (forall s st st', (forall i, In i (t_nodes t) -> untouched st st' i) -> Inv s st -> Inv s st') ->
    (forall k s d st, Inv s st -> exists s' st', (exists d', fstep (round k) (d, step t k st) = ((d', st'), false)) /\ Inv s' st' /\ Rel k s s') ->
    Inv s0 (snd (init w)) ->
    exists sg, sg 0%nat = s0 /\ (forall k, (k < N)%nat -> Rel k (sg k) (sg (S k))) /\
      throughout t period (fed N init round) w (fun k st => Inv (sg k) st).
  Proof.
    intros ST STEP I0. apply (run_trace t period (fed N init round) (fun _ => Inv) Rel); auto.
    - apply (NDn t e sv NET).
    - intros k s d st H. destruct (STEP k s d st H) as (s' & st' & (d' & E) & H' & R). exists d', st', s'. auto.
  Qed.
  Lemma active_at_clients k st i : In i (active_at t e k st) -> In i clients.
  Proof. intro Hi. destruct (fed_step_cfg t e sv NET k st) as (C1 & _). now apply (cfg_clients t (active_at t e k st) _ C1). Qed.
  Lemma active_at_nodup k st : NoDup (active_at t e k st).
  Proof. destruct (fed_step_cfg t e sv NET k st) as (_ & ND & _). exact ND. Qed.

  Lemma fedpd_run steps a eta coin x0 : faithful e ->
    exists X L C, throughout t period (fed N (fedpd_init t sv x0) (fedpd_round t e sv grad steps a eta coin)) w
        (fun k st => (forall i, In i (t_nodes t) -> state_is st i (X k i)) /\
           forall i, In i clients -> aux_is st i "lambda" (L k i) /\ aux_is st i "center" (C k i)) /\
      (forall i, X 0%nat i = x0 i /\ L 0%nat i = vzero /\ C 0%nat i = x0 sv) /\
      forall k, (k < N)%nat -> exists P R, participation t e None P R /\
        (forall i, In i P -> fedpd_local grad steps a eta i (X k i) (L k i) (C k i) (X (S k) i) /\
           L (S k) i = vadd (L k i) (vscal (/ eta) (vsub (X (S k) i) (C k i)))) /\
        (forall i, In i clients -> ~ In i P -> X (S k) i = X k i /\ L (S k) i = L k i /\ C (S k) i = C k i) /\
        (coin k = false \/ R = [] -> X (S k) sv = X k sv /\ forall i, In i P -> C (S k) i = vadd (X (S k) i) (vscal eta (L (S k) i))) /\
        (coin k = true -> R <> [] ->
           X (S k) sv = mean_over R (fun i => vadd (X (S k) i) (vscal eta (L (S k) i))) /\
           forall i, In i P -> C (S k) i = X (S k) sv \/ (~ reliable e /\ C (S k) i = vadd (X (S k) i) (vscal eta (L (S k) i)))).
  Proof.
    intros FA.
    set (Inv := fun (s : (agent_id -> vec) * (agent_id -> vec) * (agent_id -> vec)) st => let '(X, L, C) := s in
       Xinv t X st /\ (forall i, In i clients -> aux_is st i "lambda" (L i) /\ aux_is st i "center" (C i))).
    set (Rel := fun k (s s' : (agent_id -> vec) * (agent_id -> vec) * (agent_id -> vec)) => let '(X, L, C) := s in let '(X', L', C') := s' in exists P R, participation t e None P R /\
        (forall i, In i P -> fedpd_local grad steps a eta i (X i) (L i) (C i) (X' i) /\
           L' i = vadd (L i) (vscal (/ eta) (vsub (X' i) (C i)))) /\
        (forall i, In i clients -> ~ In i P -> X' i = X i /\ L' i = L i /\ C' i = C i) /\
        (coin k = false \/ R = [] -> X' sv = X sv /\ forall i, In i P -> C' i = vadd (X' i) (vscal eta (L' i))) /\
        (coin k = true -> R <> [] ->
           X' sv = mean_over R (fun i => vadd (X' i) (vscal eta (L' i))) /\
           forall i, In i P -> C' i = X' sv \/ (~ reliable e /\ C' i = vadd (X' i) (vscal eta (L' i))))).
    destruct (fed_trace_k Inv Rel (fedpd_round t e sv grad steps a eta coin) (fedpd_init t sv x0) (x0, fun _ => vzero, fun _ => x0 sv)) as (sg & S0 & SR & ST).
    - intros ((X, L), C) st st' U (H1 & H2). unfold Inv, aux_is in *. split; [eapply Xinv_stab; eauto|].
      intros i Hi. destruct (U i (client_node t e sv NET i Hi)) as (_ & ->). auto.
    - intros k ((X, L), C) d st (H1 & H2).
      assert (HX : forall i, In i clients -> state_is st i (X i) /\ aux_is st i "lambda" (L i) /\ aux_is st i "center" (C i)).
      { intros i Hi. destruct (H2 i Hi). repeat split; auto. apply H1. now apply (client_node t e sv NET). }
      destruct (fedpd_round_ok t e sv NET grad prox steps a eta coin k d st X L C HX) as (st' & Y & RR). cbv zeta in RR.
      set (P := active_at t e k st) in *. set (L' := fun i => vadd (L i) (vscal (/ eta) (vsub (Y i) (C i)))) in *.
      set (K := fun i => vadd (Y i) (vscal eta (L' i))).
      destruct RR as (RUN & UN & LOC & CF & CT).
      assert (IP : incl P clients) by (intros i Hi; apply (active_at_clients k st i Hi)).
      assert (NDP : NoDup P) by apply active_at_nodup.
      assert (CS : forall i, In i P -> i <> sv) by (intros i Hi; apply (client_sv t e sv NET), IP, Hi).
      assert (PART : forall R, NoDup R -> incl R P -> (reliable e -> R = P) -> participation t e None P R).
      { intros R A1 A2 A3. split; auto. split; auto. split; auto. split; auto. split; auto. intros _ AA _. now apply active_all_fed. }
      assert (INV : forall x' C', state_is st' sv x' -> (forall i, In i P -> aux_is st' i "center" (C' i)) ->
                Inv (after sv P Y X x', after sv P L' L vzero, after sv P C' C vzero) st').
      { intros x' C' A1 A2. split.
        - apply (Xinv_after t e sv NET) with (st := st); auto. intros i Hi. apply LOC, Hi.
        - intros i Hi. pose proof (client_sv t e sv NET i Hi) as Hs. destruct (in_dec Nat.eq_dec i P).
          + rewrite !after_in by auto. split; auto. apply LOC; auto.
          + rewrite !after_out by auto. unfold aux_is. destruct (UN i Hi n) as (_ & ->). now apply H2. }
      assert (REL : forall x' C' R, participation t e None P R ->
                (coin k = false \/ R = [] -> x' = X sv /\ forall i, In i P -> C' i = K i) ->
                (coin k = true -> R <> [] -> x' = mean_over R K /\ forall i, In i P -> C' i = x' \/ (~ reliable e /\ C' i = K i)) ->
                Rel k (X, L, C) (after sv P Y X x', after sv P L' L vzero, after sv P C' C vzero)).
      { intros x' C' R A0 A1 A2. unfold Rel. exists P, R. pose proof A0 as (_ & _ & _ & IR & _). split; auto. split; [|split; [|split]].
        - intros i Hi. rewrite !after_in by auto. split; [apply LOC; auto|reflexivity].
        - intros i Hi Ni. pose proof (client_sv t e sv NET i Hi). now rewrite !after_out by auto.
        - intro B. destruct (A1 B) as (B1 & B2). rewrite after_sv. split; auto. intros i Hi. rewrite !after_in by auto. now apply B2.
        - intros B1 B2. destruct (A2 B1 B2) as (B3 & B4). rewrite after_sv. split.
          + rewrite B3. apply mean_ext. intros i Hi. now rewrite !after_in by auto.
          + intros i Hi. rewrite !after_in by auto. now apply B4. }
      assert (UNS : untouched st st' sv -> state_is st' sv (X sv)).
      { intros (E1 & _). unfold state_is. rewrite E1. apply H1, (sv_node t e sv NET). }
      destruct (coin k) eqn:EC.
      + destruct (CT eq_refl) as (R & M & UP & HM & R0 & R1). destruct UP as (U1 & U2 & U3 & U4).
        destruct R as [|q R'] eqn:ER.
        * destruct (R0 eq_refl) as (B1 & B2). exists (after sv P Y X (X sv), after sv P L' L vzero, after sv P K C vzero), st'. split; [exact RUN|]. split.
          -- apply INV; auto.
          -- apply REL with (R := []); auto. intros _ H. now destruct H.
        * rewrite <- ER in *. assert (NR : R <> []) by (rewrite ER; discriminate). destruct (R1 NR) as (B1 & B2).
          assert (ME : mean_over R M = mean_over R K). { apply mean_ext. intros i Hi. destruct (HM i Hi) as (_ & D). apply D, FA. }
          assert (exists C', forall i, In i P -> aux_is st' i "center" (C' i) /\ (C' i = mean_over R K \/ (~ reliable e /\ C' i = K i))) as (C' & HC).
          { apply (list_choice vzero P (fun i b => aux_is st' i "center" b /\ (b = mean_over R K \/ (~ reliable e /\ b = K i)))). intros i Hi. destruct (B2 i Hi) as [(b & _ & B3 & B4)|(_ & B3 & B4)].
            - exists b. split; auto. left. rewrite <- ME. now apply B4.
            - exists (K i). auto. }
          exists (after sv P Y X (mean_over R K), after sv P L' L vzero, after sv P C' C vzero), st'. split; [exact RUN|]. split.
          -- apply INV; [now rewrite <- ME|]. intros i Hi. now apply HC.
          -- apply REL with (R := R); auto.
             ++ intros [?|?]; [discriminate|contradiction].
             ++ intros _ _. split; auto. intros i Hi. now apply HC.
      + destruct (CF eq_refl) as (B1 & B2). exists (after sv P Y X (X sv), after sv P L' L vzero, after sv P K C vzero), st'. split; [exact RUN|]. split.
        * apply INV; auto.
        * apply REL with (R := P); auto.
          -- apply PART; auto. apply incl_refl.
          -- intro; discriminate.
    - destruct (fed_init_spec t e sv NET w (x0 sv) [] x0 (fun _ => [("lambda"%string, AArr vzero); ("center"%string, AArr (x0 sv))])) as (A & B & C). fold (fedpd_init t sv x0) in *.
      split.
      + intros i Hi. unfold state_is. destruct (node_cases t e sv NET i Hi) as [->|Hc]; [exact A|]. now apply C.
      + intros i Hi. unfold aux_is. destruct (C i Hi) as (_ & ->). split; reflexivity.
    - exists (fun k => fst (fst (sg k))), (fun k => snd (fst (sg k))), (fun k => snd (sg k)). split; [|split].
      + destruct ST as (T1 & T2 & T3 & T4). unfold throughout, Inv in *. split; auto. split; [|split].
        * intros k w' Hk. specialize (T2 k w' Hk). destruct (sg k) as ((X, Z), ZS). exact T2.
        * intros k w' Hk. specialize (T3 k w' Hk). destruct (sg (S k)) as ((X, Z), ZS). exact T3.
        * cbn [al_iters fed] in *. destruct (sg N) as ((X, Z), ZS). exact T4.
      + intro i. now rewrite S0.
      + intros k Hk. specialize (SR k Hk). unfold Rel in SR. destruct (sg k) as ((X, m), v), (sg (S k)) as ((X', m'), v'). exact SR.
  Qed.
End Runs4.
