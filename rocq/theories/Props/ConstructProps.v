(** C13: construction of networks. *)
From Coq Require Import List Bool Arith ZArith Lia.
From Verif.Model Require Import PyDict Construct.
From Verif.Spec Require Import ConstructSpec.
From Verif.Proofs Require Import PyDictProofs ConstructProofs.
Import ListNotations.
Open Scope nat_scope.

(** Exactly when a peer-to-peer network is constructed. *)
Theorem C13_p2p_succeeds_iff : forall s g hs noise comp drop,
  let ids := map (fun h => g_id (s h)) hs in
  (exists s' a b c, p2p_init s g hs noise comp drop = COk s' a b c) <->
  (length hs = gr_n g /\ 0 < gr_n g /\ NoDup ids /\ (forall h, In h hs -> g_index (s h) = (-1)%Z) /\
   gr_multi g = false /\ gr_directed g = false /\ connected g /\
   (forall h k, In h hs -> In k hs -> g_sig (s h) = g_sig (s k)) /\
   scheme_ok ids noise /\ scheme_ok ids comp /\ scheme_ok ids drop).
Proof.
  intros s g hs noise comp drop ids. unfold p2p_init, network_init. fold ids.
  pose proof (proj1 (init_schemes_spec ids noise)) as SN. pose proof (proj1 (init_schemes_spec ids comp)) as SC.
  pose proof (proj1 (init_schemes_spec ids drop)) as SD.
  split.
  - intros (s' & a & b & c & H).
    destruct (Nat.eqb_spec (length hs) (gr_n g)); [|discriminate]. cbn [negb] in H.
    destruct (validate_ids s hs) eqn:V; [|discriminate]. cbn [negb] in H. apply validate_spec in V. destruct V as (V1 & V2).
    destruct (gr_multi g); [discriminate|]. destruct (gr_directed g); [discriminate|].
    destruct (Nat.eqb_spec (gr_n g) 0); [discriminate|]. assert (P : 0 < gr_n g) by lia.
    destruct (is_connected g) eqn:C; [|discriminate]. cbn [negb] in H. apply is_connected_spec in C; auto.
    destruct (compatible s hs) eqn:K; [|discriminate]. cbn [negb] in H.
    destruct (init_schemes ids noise); [|discriminate]. destruct (init_schemes ids comp); [|discriminate].
    destruct (init_schemes ids drop); [|discriminate].
    repeat (split; [solve [auto | now apply compatible_spec | apply SN; discriminate | apply SC; discriminate]|]). apply SD; discriminate.
  - intros (L & P & ND & IX & M & D & C & K & N1 & N2 & N3).
    apply Nat.eqb_eq in L. rewrite L. cbn [negb]. rewrite (proj2 (validate_spec s hs) (conj ND IX)). cbn [negb].
    rewrite M, D. replace (gr_n g =? 0) with false by (symmetry; apply Nat.eqb_neq; lia).
    rewrite (proj2 (is_connected_spec g P) C), (proj2 (compatible_spec s hs) K). cbn [negb].
    apply SN in N1. apply SC in N2. apply SD in N3.
    destruct (init_schemes ids noise); [|congruence]. destruct (init_schemes ids comp); [|congruence].
    destruct (init_schemes ids drop); [|congruence]. eauto.
Qed.

(** After success: indices are 0..n-1 in node order, nothing else about the
    agents changed, and every agent has the scheme the arguments ask for. *)
Theorem C13_p2p_result : forall s g hs noise comp drop s' a b c,
  p2p_init s g hs noise comp drop = COk s' a b c ->
  let ids := map (fun h => g_id (s h)) hs in
  (forall j d, j < length hs -> g_index (s' (nth j hs d)) = Z.of_nat j) /\
  (forall h, ~ In h hs -> s' h = s h) /\
  (forall h, g_id (s' h) = g_id (s h) /\ g_sig (s' h) = g_sig (s h)) /\
  (map fst a = ids /\ forall i x, In (i, x) a -> scheme_for noise i x) /\
  (map fst b = ids /\ forall i x, In (i, x) b -> scheme_for comp i x) /\
  (map fst c = ids /\ forall i x, In (i, x) c -> scheme_for drop i x).
Proof.
  intros s g hs noise comp drop s' a b c H ids.
  assert (ND : NoDup hs).
  { destruct (proj1 (C13_p2p_succeeds_iff s g hs noise comp drop)) as (_ & _ & ND & _); [eauto 6|]. now apply NoDup_map_inv in ND. }
  unfold p2p_init, network_init in H. fold ids in H.
  repeat match type of H with (if ?x then _ else _) = _ => destruct x; try discriminate end.
  destruct (init_schemes ids noise) eqn:E1; [|discriminate]. destruct (init_schemes ids comp) eqn:E2; [|discriminate].
  destruct (init_schemes ids drop) eqn:E3; [|discriminate]. injection H as <- <- <- <-.
  split; [intros j d Hj; rewrite assign_nth by auto; reflexivity|].
  split; [intros h Hh; now apply assign_other|].
  split; [intro h; destruct (assign_frame hs s 0 h) as (A & B & _); auto|].
  repeat split; try (now apply init_schemes_spec); now apply (proj2 (init_schemes_spec _ _) _ E1) || now apply (proj2 (init_schemes_spec _ _) _ E2) || now apply (proj2 (init_schemes_spec _ _) _ E3).
Qed.

(** A federated network: the server gets index 0, clients 1.. in order; only
    the server is flagged as server; every client has a scheme. *)
Theorem C13_fed_result : forall s clients server newh newid nil noise comp drop s' a b c,
  (server = None -> ~ In newh clients) ->
  fed_init s clients server newh newid nil noise comp drop = COk s' a b c ->
  let sv := match server with Some h => h | None => newh end in
  clients <> [] /\ NoDup (map (fun h => g_id (s' h)) (sv :: clients)) /\
  (forall j d, j < S (length clients) -> g_index (s' (nth j (sv :: clients) d)) = Z.of_nat j) /\
  g_server (s' sv) = true /\ (forall h, In h clients -> g_server (s' h) = false) /\
  g_always (s' sv) = true /\
  map fst a = map (fun h => g_id (s' h)) (sv :: clients) /\
  map fst b = map (fun h => g_id (s' h)) (sv :: clients) /\ map fst c = map (fun h => g_id (s' h)) (sv :: clients).
Proof.
  intros s clients server newh newid nil noise comp drop s' a b c NW H sv.
  unfold fed_init in H. destruct clients as [|c0 cs]; [discriminate|].
  set (cl := c0 :: cs) in *.
  set (R := match server with Some h => (s, h, g_always (s h)) | None => _ end) in H.
  assert (ER : snd (fst R) = sv) by (destruct server; reflexivity).
  assert (EA : snd R = true -> g_always (fst (fst R) sv) = true).
  { unfold R, sv. destruct server; simpl; auto. intros _. rewrite Nat.eqb_refl. reflexivity. }
  destruct R as [[s0 sv'] ok]. simpl in ER, EA. subst sv'.
  destruct ok; [|discriminate]. cbn [negb] in H. specialize (EA eq_refl).
  set (s1 := fold_left (fun s c => set_server s c false) cl s0) in *.
  set (s2 := set_server s1 sv true) in *.
  destruct (validate_ids s2 (sv :: cl)) eqn:V; [|discriminate]. cbn [negb] in H.
  apply validate_spec in V. destruct V as (V1 & V2).
  assert (F1 : forall l s k, g_always (fold_left (fun s c => set_server s c false) l s k) = g_always (s k) /\
     g_server (fold_left (fun s c => set_server s c false) l s k) = if existsb (Nat.eqb k) l then false else g_server (s k)).
  { clear. induction l as [|x l IH]; intros s k; simpl; auto. destruct (IH (set_server s x false) k) as (A & B). rewrite A, B.
    unfold set_server. destruct (Nat.eqb k x); simpl; auto. destruct (existsb _ l); auto. }
  unfold network_init in H. cbn [star gr_multi gr_directed gr_n length Nat.eqb] in H.
  repeat match type of H with (if ?x then _ else _) = _ => destruct x; try discriminate end.
  set (ids := map (fun h => g_id (s2 h)) (sv :: cl)) in *.
  match type of H with context [init_schemes ids ?x] => destruct (init_schemes ids x) eqn:E1; [|discriminate] end.
  match type of H with match init_schemes ids ?x with _ => _ end = _ => destruct (init_schemes ids x) eqn:E2; [|discriminate] end.
  match type of H with match init_schemes ids ?x with _ => _ end = _ => destruct (init_schemes ids x) eqn:E3; [|discriminate] end.
  injection H as ES <- <- <-. change (assign s2 (sv :: cl) 0 = s') in ES.
  assert (IDS : map (fun h => g_id (s' h)) (sv :: cl) = ids).
  { rewrite <- ES. apply map_ext. intro h. apply assign_frame. }
  assert (ND : NoDup (sv :: cl)) by (eapply NoDup_map_inv; exact V1).
  split; [discriminate|]. rewrite IDS. clear IDS. subst s'. split; [exact V1|].
  split; [intros j d Hj; rewrite assign_nth by auto; reflexivity|].
  assert (NI : ~ In sv cl) by now inversion ND.
  split.
  { destruct (assign_frame (sv :: cl) s2 0 sv) as (_ & _ & -> & _). unfold s2, set_server. rewrite Nat.eqb_refl. reflexivity. }
  split.
  { intros h Hh. destruct (assign_frame (sv :: cl) s2 0 h) as (_ & _ & -> & _). unfold s2, set_server.
    destruct (Nat.eqb_spec h sv); [subst; contradiction|]. unfold s1. rewrite (proj2 (F1 cl s0 h)).
    replace (existsb (Nat.eqb h) cl) with true; auto. symmetry. now apply existsb_eqb. }
  split.
  { destruct (assign_frame (sv :: cl) s2 0 sv) as (_ & _ & _ & -> & _). unfold s2, set_server. rewrite Nat.eqb_refl. simpl.
    unfold s1. now rewrite (proj1 (F1 cl s0 sv)). }
  repeat split; [now apply (proj2 (init_schemes_spec _ _) _ E1)|now apply (proj2 (init_schemes_spec _ _) _ E2)|now apply (proj2 (init_schemes_spec _ _) _ E3)].
Qed.

(** Failed construction is not atomic: indices are assigned before the scheme
    arguments are validated (networks.py:70-79), so the same agents can never
    be used afterwards, whatever the arguments. *)
Definition st2 : store := fun h => mkAg h (-1) 0 true false 1.
Definition g2 : graph := mkGraph 2 [(0, 1)] false false.
Theorem C13_failure_is_atomic_refuted :
  exists s', p2p_init st2 g2 [0; 1] (SDict [(0, 5)]) SNone SNone = CErr s' /\
    (exists s'' a b c, p2p_init st2 g2 [0; 1] SNone SNone SNone = COk s'' a b c) /\
    forall g noise comp drop, exists s3, p2p_init s' g [0; 1] noise comp drop = CErr s3.
Proof.
  eexists. split; [reflexivity|]. split; [vm_compute; eauto 6|].
  intros. unfold p2p_init. destruct (negb _); [eauto|]. cbn. eauto.
Qed.

Example C13_nonvacuous :
  match p2p_init (fun h => mkAg (100 + h) (-1) 7 true false 1) (mkGraph 3 [(2, 0); (1, 2)] false false) [4; 2; 9]
     (SOne 3) (SDict [(104, 1); (102, 2); (109, 3); (5, 5)]) SNone with
  | COk s a b c => map (fun h => g_index (s h)) [4; 2; 9; 7] = [0; 1; 2; -1]%Z /\ b = [(104, Own 1); (102, Own 2); (109, Own 3)]
  | CErr _ => False end.
Proof. vm_compute. auto. Qed.
Example C13_fed_nonvacuous :
  match fed_init (fun h => mkAg (100 + h) (-1) 7 true false 1) [4; 2] None 50 500 0 SNone (SDict [(104, 1); (102, 2)]) SNone with
  | COk s a b c => map (fun h => g_index (s h)) [50; 4; 2] = [0; 1; 2]%Z /\ b = [(500, Own 0); (104, Own 1); (102, Own 2)]
  | CErr _ => False end.
Proof. vm_compute. auto. Qed.

Print Assumptions C13_p2p_succeeds_iff.
Print Assumptions C13_fed_result.
Print Assumptions C13_failure_is_atomic_refuted.
