(** C87: arrays are copied where it matters. *)
From Coq Require Import Reals List ZArith Bool Lia Lra FunctionalExtensionality.
From Verif.Model Require Import PyDict History Heap.
From Verif.Spec Require Import HeapSpec.
From Verif.Proofs Require Import PyDictProofs HeapProofs.
Import ListNotations.

Section C87.
  Context {V : Type}.
  Variable shape_ok : nat -> V -> bool.
  Variable period : nat -> Z.
  Variable vadd : V -> V -> V.
  Notation execs := (execs shape_ok period vadd).
  (** the state after running the client program [os] from the start *)
  Notation after os st := (execs state0 os = Some st).

  (** A snapshot records the value x has at that moment: whatever the client does
      afterwards with the arrays it can get hold of, in place or not, the recorded
      value stays, until the same iteration is recorded again or the agent is
      re-initialised. *)
  Theorem C87_history_entries_never_change os a k force rest st1 st2 v :
    after os st1 -> x_value st1 a = Some v -> (0 <= k)%Z -> force = true \/ (k mod period a = 0)%Z ->
    (forall o, In o rest -> ~ rerecords a k o) ->
    after (os ++ OSnapshot a k force :: rest) st2 -> history_value st2 a k = Some v.
  Proof.
    intros E1 Hx Hk Hdue Hn E. rewrite execs_app, E1 in E. cbn [Heap.execs Heap.exec] in E.
    unfold snapshot in E. unfold x_value in Hx. destruct (a_x (s_agent st1 a)) as [l|] eqn:Ha; [|discriminate].
    replace (force || (k mod period a =? 0)%Z) with true in E
      by (symmetry; apply orb_true_iff; destruct Hdue; [now left|right; now apply Z.eqb_eq]).
    unfold copy, content in *. rewrite Hx in E. cbn [option_map new] in E.
    assert (Hs : exists hist, h_set (a_hist (s_agent st1 a)) k (length (s_heap st1)) = Ok hist
                              /\ dget Z.eqb (h_dict hist) k = Some (length (s_heap st1))).
    { unfold h_set. destruct (Z.ltb_spec k 0); [lia|]. eexists. split; [reflexivity|].
      cbn. apply (dget_dset_eq _ _ Z.eqb Z.eqb_spec). }
    destruct Hs as (hist & Hs & Hd). rewrite Hs in E.
    assert (W : wf st1) by (eapply wf_steps; [exact E1|apply wf0]).
    match type of E with Heap.execs _ _ _ ?s0 _ = _ => set (st := s0) in E end.
    assert (C : confined st (length (s_heap st1)) (fun _ => False) (fun _ _ => False)).
    { constructor; cbn.
      - rewrite app_length; cbn; lia.
      - intros H. pose proof (W _ (ex_ref _ _ H)); lia.
      - intros b H. destruct (Nat.eqb b a); cbn in H.
        + rewrite <- Ha in H. pose proof (W _ (ex_x _ _ _ H)); lia.
        + pose proof (W _ (ex_x _ _ _ H)); lia.
      - intros b H. destruct (Nat.eqb b a); cbn in H; pose proof (W _ (ex_aux _ _ _ H)); lia.
      - intros b q H. destruct (Nat.eqb b a); cbn in H; pose proof (W _ (ex_msg _ _ _ _ H)); lia. }
    destruct (confined_steps _ _ _ _ _ _ _ _ _ E C) as [_ Cv].
    { intros o _. destruct o; cbn; auto. }
    unfold history_value. rewrite (hist_dget_steps _ _ _ _ _ _ _ _ E Hn). cbn. rewrite Nat.eqb_refl. cbn.
    rewrite Hd, Cv. unfold content. cbn. rewrite nth_error_app2, Nat.sub_diag by lia. reflexivity.
  Qed.

  (** [initialize(x=y)] gives the agent an array of its own and records another
      one: neither changes when the caller later updates [y] (or gives it to other
      agents), and the recorded one not even when the agent's x is updated in
      place. *)
  Theorem C87_initialize_copies os a l aux rest st1 st2 v :
    after os st1 -> content st1 l = Some v -> shape_ok a v = true ->
    after (os ++ OInit a (Some l) aux :: rest) st2 ->
    ((forall o, In o rest -> ~ rerecords a 0 o) -> history_value st2 a 0 = Some v) /\
    ((forall o, In o rest -> ~ touches_x a o) -> x_value st2 a = Some v).
  Proof.
    intros E1 Hl Hok E. rewrite execs_app, E1 in E. cbn [Heap.execs] in E.
    destruct (Heap.exec shape_ok period vadd st1 (OInit a (Some l) aux)) as [st|] eqn:Ei; [|discriminate].
    assert (W : wf st1) by (eapply wf_steps; [exact E1|apply wf0]).
    cbn [Heap.exec] in Ei. unfold guard in Ei. destruct (_ && _); [|discriminate].
    unfold initialize in Ei. unfold content in Hl. rewrite Hl, Hok in Ei. cbn [new h_set] in Ei. cbv beta iota in Ei.
    set (n := length (s_heap st1)) in *.
    assert (F : exists e d', s_heap st = ((s_heap st1 ++ [v]) ++ [v]) ++ e /\ s_refs st = s_refs st1
               /\ (forall q, In q (aux_leaves d') -> (n + 2 <= q)%nat)
               /\ (forall b, s_agent st b = if Nat.eqb b a then mkAgent (Some (length (s_heap st1 ++ [v])))
                        (mkHist [(0%Z, n)] [0%Z]) d' [] else s_agent st1 b)).
    { destruct aux as [d|].
      - destruct (copy_dict _ d) as [[h' d']|] eqn:Ec; [|discriminate]. cbn in Ei. injection Ei as <-.
        apply copy_dict_fresh in Ec. destruct Ec as [(e & ->) Fr]. exists e, d'. cbn.
        split; [reflexivity|]. split; [reflexivity|]. split; [|reflexivity].
        intros q Hq. apply Fr in Hq. cbn in Hq. rewrite !app_length in Hq. cbn in Hq. unfold n. lia.
      - injection Ei as <-. exists [], []. cbn. rewrite app_nil_r.
        split; [reflexivity|]. split; [reflexivity|]. split; [intros q []|reflexivity]. }
    destruct F as (e & d' & Fh & Fr & Fa & Fg). clear Ei.
    assert (Ln : length (s_heap st1 ++ [v]) = S n) by (rewrite app_length; cbn; unfold n; lia).
    assert (LL : (n + 2 <= length (s_heap st))%nat) by (rewrite Fh, !app_length; cbn; unfold n; lia).
    assert (C : forall q (X : nat -> Prop), (n <= q < n + 2)%nat -> (q = S n -> X a) -> confined st q X (fun _ _ => False)).
    { intros q X Hq HX. constructor.
      - lia.
      - rewrite Fr. intros H. pose proof (W _ (ex_ref _ _ H)). fold n in H0. lia.
      - intros b. rewrite Fg. destruct (Nat.eqb_spec b a) as [-> |]; cbn.
        + intros [= <-]. apply HX. exact Ln.
        + intros H. pose proof (W _ (ex_x _ _ _ H)). fold n in H0. lia.
      - intros b. rewrite Fg. destruct (Nat.eqb b a); cbn [a_aux].
        + intros H. apply Fa in H. lia.
        + intros H. pose proof (W _ (ex_aux _ _ _ H)). fold n in H0. lia.
      - intros b k. rewrite Fg. destruct (Nat.eqb b a); cbn; auto.
        intros H. pose proof (W _ (ex_msg _ _ _ _ H)). fold n in H0. lia. }
    split; intros Hn.
    - destruct (confined_steps _ _ _ _ _ _ n (fun _ => False) (fun _ _ => False) E) as [_ Cv].
      { apply C; lia. }
      { intros o _. destruct o; cbn; auto. }
      unfold history_value. rewrite (hist_dget_steps _ _ _ _ _ _ _ _ E Hn), Fg, Nat.eqb_refl. cbn.
      rewrite Cv. unfold content. rewrite Fh, <- !app_assoc, nth_error_app2 by (fold n; lia).
      fold n. rewrite Nat.sub_diag. reflexivity.
    - destruct (confined_steps _ _ _ _ _ _ (S n) (fun b => b = a) (fun _ _ => False) E) as [_ Cv].
      { apply C; [lia|auto]. }
      { intros o Ho Hleak. apply (Hn o Ho). destruct o; cbn in Hleak |- *; auto; contradiction. }
      unfold x_value. rewrite (x_steps _ _ _ _ _ _ _ E Hn), Fg, Nat.eqb_refl. cbn [a_x].
      rewrite Ln, Cv. unfold content. rewrite Fh, <- !app_assoc, nth_error_app2 by (fold n; lia).
      fold n. replace (S n - n)%nat with 1%nat by lia. reflexivity.
  Qed.

  (** What a receiver finds in its inbox is what was sent at that moment
      (compressed, with its own noise): it does not change when the sender or
      anyone else goes on to update arrays in place, as long as no receiver of the
      same noise-free message takes the array out of its inbox. *)
  Theorem C87_messages_are_copies os s ch l c rs noise rest st1 st2 v i r :
    after os st1 -> content st1 l = Some v -> NoDup rs -> nth_error rs i = Some r ->
    after (os ++ OSend s ch l c rs noise :: rest) st2 ->
    (forall o, In o rest -> ~ replaces_message r ch s o) ->
    (forall o q, In o rest -> q = r \/ (noise = None /\ In q rs) -> ~ reads_message q ch s o) ->
    message_value st2 r ch s = transmitted vadd c v noise i.
  Proof.
    intros E1 Hl Hnd Hi E Hn Hq. rewrite execs_app, E1 in E. cbn [Heap.execs] in E.
    destruct (Heap.exec shape_ok period vadd st1 (OSend s ch l c rs noise)) as [st|] eqn:Ei; [|discriminate].
    assert (W : wf st1) by (eapply wf_steps; [exact E1|apply wf0]).
    assert (Wst : wf st) by (eapply wf_step; eauto).
    cbn [Heap.exec] in Ei. unfold guard in Ei. destruct (holds st1 l); [|discriminate].
    unfold send in Ei. unfold content in Hl. rewrite Hl in Ei. unfold transmitted.
    assert (P : forall h w l1, (exists e, h = s_heap st1 ++ e) -> nth_error h l1 = Some w -> (length (s_heap st1) <= l1)%nat ->
              deliver vadd (mkState h (s_agent st1) (s_refs st1)) s ch l1 w rs noise = Some st ->
              message_value st2 r ch s = match noise with None => Some w | Some ns => option_map (vadd w) (nth_error ns i) end).
    { intros h w l1 (e & ->) Hw Hl1 D.
      set (st0 := mkState (s_heap st1 ++ e) (s_agent st1) (s_refs st1)) in D.
      assert (L0 : (length (s_heap st1) <= length (s_heap st1 ++ e))%nat) by (rewrite app_length; lia).
      assert (W0 : wf st0).
      { intros q [H|b H|b H|b k H]; cbn in H |- *.
        - pose proof (W _ (ex_ref _ _ H)); lia.
        - pose proof (W _ (ex_x _ _ _ H)); lia.
        - pose proof (W _ (ex_aux _ _ _ H)); lia.
        - pose proof (W _ (ex_msg _ _ _ _ H)); lia. }
      assert (N0 : forall r k, ~ In (k, l1) (a_inbox (s_agent st0 r))).
      { intros b k H. cbn in H. pose proof (W _ (ex_msg _ _ _ _ H)). lia. }
      assert (Hlen : (l1 < length (s_heap st0))%nat) by (apply nth_error_Some; cbn; congruence).
      destruct (deliver_gets _ _ _ _ _ _ Hnd _ _ _ D Hw W0 N0 _ _ Hi) as (l' & Dg & Dl & Dc & Db & Du).
      destruct (deliver_app _ _ _ _ _ _ _ _ _ D Hlen) as (_ & Hr & Ha & _).
      assert (Hl' : (length (s_heap st1) <= l')%nat).
      { destruct noise; [cbn in Dl; lia|subst l'; exact Hl1]. }
      assert (C : confined st l' (fun _ => False)
                 (fun q k => k = (ch, s) /\ match noise with None => In q rs | Some _ => q = r end)).
      { constructor; auto.
        - rewrite Hr. cbn. intros H. pose proof (W _ (ex_ref _ _ H)). lia.
        - intros b. destruct (Ha b) as (-> & _ & _). cbn. intros H. pose proof (W _ (ex_x _ _ _ H)). lia.
        - intros b. destruct (Ha b) as (_ & _ & ->). cbn. intros H. pose proof (W _ (ex_aux _ _ _ H)). lia. }
      destruct (confined_steps _ _ _ _ _ _ _ _ _ E C) as [_ Cv].
      { intros o Ho Hleak. destruct o as [| | | | | | |q ch' s'| | |]; cbn in Hleak; auto.
        destruct Hleak as [[= -> ->] Hlk]. apply (Hq _ q Ho); [|cbn; auto].
        destruct noise; [now left|right; auto]. }
      unfold message_value. rewrite (msg_steps _ _ _ _ _ _ _ _ _ E Hn), Dg, Cv. exact Dc. }
    destruct c as [|f]; cbn [new] in Ei.
    - eapply P in Ei; [exact Ei|now exists [v]| |lia]. rewrite nth_error_app2, Nat.sub_diag by lia. reflexivity.
    - eapply P in Ei; [exact Ei| | |rewrite app_length; lia].
      + exists ([v] ++ [f v]). now rewrite app_assoc.
      + rewrite nth_error_app2, Nat.sub_diag by lia. reflexivity.
  Qed.
End C87.

Local Open Scope nat_scope.

(** A program that tries hard: agent 0 starts from the array 0, snapshots, gets its
    x and overwrites it and its starting array, sends it, overwrites it again. *)
Definition prog : list (op nat) :=
  [ONew 5; OInit 0 (Some 0) (Some [(7, AMap [(0, ALeaf 0)])]); OWrite 0 6; OGetX 0].
Definition ok (_ _ : nat) : bool := true.
Definition every (_ : nat) : Z := 2%Z.
(** what is observed after a program *)
Definition observe {A} (os : list (op nat)) (f : state nat -> A) : option A :=
  option_map f (execs ok every Nat.add state0 os).
Example C87_history_entries_never_change_case :
  observe (prog ++ OSnapshot 0 4 false :: [OWrite 2 8; OGetAux 0; OWrite 3 9; OSnapshot 0 6 true])
    (fun st => (history_value st 0 0, history_value st 0 4, history_value st 0 6, x_value st 0))
  = Some (Some 5, Some 5, Some 8, Some 8).
Proof. vm_compute. reflexivity. Qed.
Example C87_messages_are_copies_case :
  observe (prog ++ OSend 0 3 2 Same [1; 2] (Some [10; 20]) :: [OWrite 2 8; OGetMsg 1 3 0; OWrite 5 99])
    (fun st => (message_value st 2 3 0, message_value st 1 3 0)) = Some (Some 25, Some 99).
Proof. vm_compute. reflexivity. Qed.
(** the caller's array and the agent's are different from the start *)
Example C87_initialize_copies_case :
  observe ([ONew 5] ++ OInit 0 (Some 0) None :: [OWrite 0 6; OInit 1 (Some 0) None; OGetX 1; OWrite 4 7])
    (fun st => (x_value st 0, x_value st 1, history_value st 1 0)) = Some (Some 5, Some 7, Some 6).
Proof. vm_compute. reflexivity. Qed.
Lemma observed {A} os (f : state nat -> A) x : observe os f = Some x ->
  exists st, execs ok every Nat.add state0 os = Some st /\ f st = x.
Proof.
  unfold observe. destruct (execs ok every Nat.add state0 os) as [st|]; [|discriminate].
  intros [= <-]. now exists st.
Qed.

(** Without noise all receivers of one message share one array: a receiver that
    updates it in place (as DLM and DiNNO do, Model/P2PShared.v) changes what the
    others read. *)
Theorem C87_broadcast_shared_refuted :
  ~ (forall os s ch l c rs noise rest (st1 st2 : state nat) v i r,
       execs ok every Nat.add state0 os = Some st1 -> content st1 l = Some v -> NoDup rs -> nth_error rs i = Some r ->
       execs ok every Nat.add state0 (os ++ OSend s ch l c rs noise :: rest) = Some st2 ->
       (forall o, In o rest -> ~ replaces_message r ch s o) -> (forall o, In o rest -> ~ reads_message r ch s o) ->
       message_value st2 r ch s = transmitted Nat.add c v noise i).
Proof.
  intros H.
  destruct (observed [ONew 5] (fun st => content st 0) (Some 5)) as (st1 & E1 & C1); [vm_compute; reflexivity|].
  destruct (observed ([ONew 5] ++ OSend 0 3 0 Same [1; 2] None :: [OGetMsg 1 3 0; OWrite 1 99])
              (fun st => message_value st 2 3 0) (Some 99)) as (st2 & E2 & C2); [vm_compute; reflexivity|].
  assert (Hd : NoDup [1; 2]).
  { constructor; [|constructor; [|constructor]]; cbn; lia. }
  pose proof (H _ _ _ _ _ _ _ _ _ _ _ 1 2 E1 C1 Hd eq_refl E2) as G.
  rewrite C2 in G. cbn in G. discriminate G.
  - intros o [<- |[<- |[]]]; cbn; auto.
  - intros o [<- |[<- |[]]]; cbn; lia.
Qed.

(** [agent.x] is the array itself, not a copy: updating it in place changes the
    agent's x although x is never assigned. *)
Theorem C87_x_only_by_assignment_refuted :
  ~ (forall os rest (st1 st2 : state nat) a,
       execs ok every Nat.add state0 os = Some st1 -> execs ok every Nat.add state0 (os ++ rest) = Some st2 ->
       (forall o, In o rest -> match o with OInit b _ _ | OSetX b _ => b <> a | _ => True end) ->
       x_value st2 a = x_value st1 a).
Proof.
  intros H.
  destruct (observed [ONew 5; OInit 0 (Some 0) None] (fun st => x_value st 0) (Some 5)) as (st1 & E1 & C1); [vm_compute; reflexivity|].
  destruct (observed ([ONew 5; OInit 0 (Some 0) None] ++ [OGetX 0; OWrite 2 9]) (fun st => x_value st 0) (Some 9))
    as (st2 & E2 & C2); [vm_compute; reflexivity|].
  specialize (H _ _ _ _ 0 E1 E2). rewrite C1, C2 in H. discriminate H.
  intros o [<- |[<- |[]]]; exact I.
Qed.

(** An x-less [initialize] keeps the old x while the history is empty. *)
Theorem C87_initialize_resets_x_refuted :
  ~ (forall os (st2 : state nat) a aux,
       execs ok every Nat.add state0 (os ++ [OInit a None aux]) = Some st2 -> x_value st2 a = history_value st2 a 0).
Proof.
  intros H.
  destruct (observed ([ONew 5; OInit 0 (Some 0) None] ++ [OInit 0 None None]) (fun st => (x_value st 0, history_value st 0 0)) (Some 5, None))
    as (st2 & E2 & C2); [vm_compute; reflexivity|].
  specialize (H _ _ _ _ E2). injection C2 as C2 C3. rewrite C2, C3 in H. discriminate H.
Qed.

(** ** A gradient that is its argument *)
From Verif.Model Require Import Vec P2P Fed NovaObjects.
From Verif.Spec Require Import FedSpec.
From Verif.Proofs Require Import VecProofs.
Open Scope R_scope.

(** FedNova's local update is the documented one for every cost whose gradient is a
    new array, and for every cost when [use_prox] is off. *)
Theorem C87_fednova_new_gradient n a beta mu alias grad i ref : alias = false \/ mu = None ->
  nova_path (fun _ _ => grad) i a beta mu ref n ref vzero (nova_local n a beta mu alias grad ref).
Proof.
  intros HA. unfold nova_local.
  assert (G : forall n x m, nova_path (fun _ _ => grad) i a beta mu ref n x m
                (fst (nova_loop n a beta mu ref alias grad (x, m)))); [|apply G].
  clear n. induction n as [|n IH]; intros x m; cbn [nova_loop]; [constructor|].
  set (g' := match mu with Some mu => vadd (grad x) (vscal mu (vsub x ref)) | None => grad x end).
  set (m' := match beta with Some be => vadd (vscal be m) g' | None => g' end).
  assert (P : nova_pass a beta mu ref alias (grad (fst (x, m))) (x, m)
              = (vsub x (vscal a m'), match beta with Some _ => m' | None => m end)).
  { unfold nova_pass, m', g'. cbn [fst]. destruct HA as [-> | ->]; destruct beta; try reflexivity; destruct mu; reflexivity. }
  rewrite P. eapply np_cons with (g := grad x) (m' := m').
  - exists 0%nat. reflexivity.
  - reflexivity.
  - destruct beta as [be|]; [apply IH|].
    (* without momentum the momentum array is not used *)
    assert (Q : forall k y m1 m2 z, nova_path (fun _ _ => grad) i a None mu ref k y m1 z -> nova_path (fun _ _ => grad) i a None mu ref k y m2 z).
    { clear. intros k. induction k as [|k IHk]; intros y m1 m2 z H; inversion H; subst; [constructor|].
      eapply np_cons; eauto. }
    eapply Q. apply IH.
Qed.
Example C87_fednova_new_gradient_case : exists x,
  x = nova_local 2 (1/2) None (Some 1) false l2_gradient (fun _ => 1) /\ x 0%nat = 1/2.
Proof. eexists. split; [reflexivity|]. unfold nova_local, nova_loop, nova_pass, l2_gradient, vsub, vscal, vadd. cbn [fst]. lra. Qed.

(** With [use_prox] and clients whose cost is a bare [L2RegularizerCost], whose
    gradient is the array [local_x] itself, it is not: two local steps from 1 with
    step size 1/2 and penalty 1 end at 0 instead of 1/2. *)
Theorem C87_fednova_l2_prox_refuted :
  ~ (forall n a beta mu i ref,
       nova_path (fun _ _ => l2_gradient) i a beta mu ref n ref vzero (nova_local n a beta mu true l2_gradient ref)).
Proof.
  intros H. specialize (H 2%nat (1/2) None (Some 1) 0%nat (fun _ => 1)).
  assert (P : forall z, nova_path (fun _ _ => l2_gradient) 0%nat (1/2) None (Some 1) (fun _ => 1) 2 (fun _ => 1) vzero z -> z 0%nat = 1/2).
  { clear H. intros z H. inversion H as [|n x m g m' y G Hm P]. subst. destruct G as [d ->].
    inversion P as [|n2 x2 m2 g2 m2' y2 G2 Hm2 P2]. subst. destruct G2 as [d2 ->].
    inversion P2. subst. unfold l2_gradient, vsub, vscal, vadd. lra. }
  apply P in H. revert H. unfold nova_local, nova_loop, nova_pass, l2_gradient, vsub, vscal, vadd. cbn [fst]. lra.
Qed.

Print Assumptions C87_history_entries_never_change.
Print Assumptions C87_initialize_copies.
Print Assumptions C87_messages_are_copies.
Print Assumptions C87_broadcast_shared_refuted.
Print Assumptions C87_x_only_by_assignment_refuted.
Print Assumptions C87_initialize_resets_x_refuted.
Print Assumptions C87_fednova_new_gradient.
Print Assumptions C87_fednova_l2_prox_refuted.
