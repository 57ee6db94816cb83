(** The modelled algorithms use the network through its operations only and do
    not look at histories. *)
From Coq Require Import Reals String List Bool Arith ZArith Lia FunctionalExtensionality.
From Verif.Model Require Import PyDict History Messages Network Runner Vec P2P P2PVR Fed.
From Verif.Spec Require Import NetworkSpec P2PSpec FedSpec RunnerSpec AlgSpec.
From Verif.Proofs Require Import PyDictProofs NetworkProofs NetworkInv RunnerProofs.
Import ListNotations.

(** ** Local computations *)
Inductive lop := LX (v : vec) | LA (k : string) (v : auxv vec).
Definition papply (p : priv) (o : lop) : priv :=
  match o with
  | LX v => mkPriv (Some v) (v_aux p) (S (v_nx p))
  | LA k v => mkPriv (v_x p) (dset String.eqb (v_aux p) k v) (v_nx p)
  end.
Definition polite {A} (m : L A) : Prop := forall s a s', m s = Some (a, s') -> exists ops, fst s' = fold_left papply ops (fst s).

Lemma polite_ret {A} (a : A) : polite (lret a).
Proof. intros s b s' [= <- <-]. exists []. reflexivity. Qed.
Lemma polite_none {A} : polite (fun _ => @None (A * (priv * nat))).
Proof. intros s b s' H. discriminate. Qed.
Lemma polite_bind {A B} (m : L A) (f : A -> L B) : polite m -> (forall a, polite (f a)) -> polite (lbind m f).
Proof.
  intros Hm Hf s b s' E. unfold lbind in E. destruct (m s) as [(a, s1)|] eqn:E1; [|discriminate].
  destruct (Hm _ _ _ E1) as (o1 & X1). destruct (Hf _ _ _ _ E) as (o2 & X2). exists (o1 ++ o2). rewrite fold_left_app. congruence.
Qed.
Lemma polite_getx : polite getx.
Proof. intros s a s' E. unfold getx in E. destruct (v_x (fst s)); [|discriminate]. injection E as <- <-. now exists []. Qed.
Lemma polite_setx v : polite (setx v).
Proof. intros s a s' [= <- <-]. now exists [LX v]. Qed.
Lemma polite_aux k : polite (aux k).
Proof. intros s a s' E. unfold aux in E. destruct (dget _ _ _) as [[v|]|]; try discriminate. injection E as <- <-. now exists []. Qed.
Lemma polite_auxm k : polite (auxm k).
Proof. intros s a s' E. unfold auxm in E. destruct (dget _ _ _) as [[v|m]|]; try discriminate. injection E as <- <-. now exists []. Qed.
Lemma polite_put k v : polite (put k v).
Proof. intros s a s' [= <- <-]. now exists [LA k (AArr v)]. Qed.
Lemma polite_putm k v : polite (putm k v).
Proof. intros s a s' [= <- <-]. now exists [LA k (AMap v)]. Qed.
Lemma polite_gradient grad i x : polite (gradient grad i x).
Proof. intros s a s' [= <- <-]. now exists []. Qed.
Lemma polite_proximal prox i x r : polite (proximal prox i x r).
Proof. intros s a s' [= <- <-]. now exists []. Qed.
Lemma polite_draw {A} (f : priv * nat -> A) : polite (fun s => Some (f s, (fst s, S (snd s)))).
Proof. intros s a s' [= <- <-]. now exists []. Qed.
Lemma polite_ltimes n op : (forall v, polite (op v)) -> forall v, polite (ltimes n op v).
Proof. intro H. induction n as [|n IH]; intro v; cbn [ltimes]; [apply polite_ret|]. apply polite_bind; auto. Qed.
Lemma polite_lfor {A} (l : list A) body : (forall a, polite (body a)) -> polite (lfor l body).
Proof. intro H. induction l as [|a l IH]; cbn [lfor]; [apply polite_ret|]. apply polite_bind; auto. Qed.

Lemma polite_bgrad sg batch i x : polite (batch_gradient sg batch i x).
Proof. intros s a s' E. injection E as <- <-. now exists []. Qed.
Lemma polite_brows sg batch i x : polite (batch_rows sg batch i x).
Proof. intros s a s' E. injection E as <- <-. now exists []. Qed.
Lemma polite_rows_at T l : polite (rows_at T l).
Proof. intros s a s' E. unfold rows_at in E. destruct (pick T l); [|discriminate]. injection E as <- <-. now exists []. Qed.
Lemma polite_rows_put T l : polite (rows_put T l).
Proof. intros s a s' E. unfold rows_put in E. destruct (store T l); [|discriminate]. injection E as <- <-. now exists []. Qed.

Ltac polite1 := first
  [ apply polite_ret | apply polite_none | apply polite_getx | apply polite_setx | apply polite_aux | apply polite_auxm | apply polite_put
  | apply polite_bgrad | apply polite_brows | apply polite_rows_at | apply polite_rows_put
  | apply polite_putm | apply polite_gradient | apply polite_proximal | apply polite_draw
  | apply polite_bind; [|intro] | apply polite_ltimes; intro | apply polite_lfor; intro
  | match goal with |- polite (match ?x with _ => _ end) => destruct x end ].
Ltac politely := cbn zeta; repeat polite1.

Section Client.
  Variables (t : topo) (e : env vec).

  Definition nop_of (i : agent_id) (o : lop) : nop vec := match o with LX v => NSetX i v | LA k v => NSetAux i k v end.
  Lemma put_priv_of (a : agent vec) : put_priv (priv_of a) a = a.
  Proof. now destruct a. Qed.
  Lemma apply_agent o (p : priv) (a : agent vec) : put_priv (papply p o) a = match o with LX v => set_x v | LA k v => set_aux k v end (put_priv p a).
  Proof. now destruct o. Qed.
  Lemma net_eta (st : net vec) : mkNet (n_agents st) (n_iter st) (n_cache st) (n_conn st) (n_draws st) (n_log st) = st.
  Proof. now destruct st. Qed.
  Lemma put_ops i ops : forall (st : net vec) p, upd_agent i (put_priv (fold_left papply ops p)) st = nrun t e (upd_agent i (put_priv p) st) (map (nop_of i) ops).
  Proof.
    induction ops as [|o ops IH]; intros st p; cbn [fold_left map]; [reflexivity|]. rewrite IH. unfold nrun. cbn [fold_left]. f_equal.
    destruct o; cbn [nop_of nstep]; unfold upd_agent; cbn; f_equal; apply functional_extensionality; intro b; unfold upd; destruct (Nat.eqb b i); reflexivity.
  Qed.
  Lemma put_same i (st : net vec) : upd_agent i (put_priv (priv_of (n_agents st i))) st = st.
  Proof.
    rewrite <- (net_eta st) at 3. unfold upd_agent. f_equal. apply functional_extensionality. intro b. unfold upd.
    destruct (Nat.eqb_spec b i) as [->|]; auto. apply put_priv_of.
  Qed.
  Lemma ops_client i ops : Forall (@client_op vec) (map (nop_of i) ops).
  Proof. apply Forall_forall. intros o Ho. apply in_map_iff in Ho. destruct Ho as (x & <- & _). now destruct x. Qed.
  (** a polite computation of agent [i] is a sequence of operations *)
  Lemma local_ops {A} i (m : L A) st d a p d' : polite m -> m (priv_of (n_agents st i), d) = Some (a, (p, d')) ->
    exists ops, Forall (@client_op vec) ops /\ upd_agent i (put_priv p) st = nrun t e st ops.
  Proof.
    intros H E. destruct (H _ _ _ E) as (ops & X). cbn [fst] in X. subst p. exists (map (nop_of i) ops). split; [apply ops_client|].
    now rewrite put_ops, put_same.
  Qed.

  Definition reach (st st' : net vec) : Prop := exists ops, Forall (@client_op vec) ops /\ st' = nrun t e st ops.
  Lemma reach_refl st : reach st st. Proof. exists []. auto. Qed.
  Lemma reach_trans a b c : reach a b -> reach b c -> reach a c.
  Proof. intros (o & F & ->) (o' & F' & ->). exists (o ++ o'). split; [now apply Forall_app|]. unfold nrun. now rewrite fold_left_app. Qed.
  Lemma reach_op o st : client_op o -> reach st (nstep t e st o).
  Proof. intro C. exists [o]. split; auto. Qed.
  Lemma reach_send st i r v c : reach st (sstate (send t e st i r v c)).
  Proof. apply (reach_op (NSend i r v c)). exact I. Qed.

  (** *** peer-to-peer *)
  Definition polite_phase (ph : phase) : Prop :=
    match ph with PSend f => forall i, polite (f i) | PUpd f => forall i inb, polite (f i inb) end.
  Lemma reach_send_all i l : forall st, reach st (fst (send_all t e i l st)).
  Proof.
    induction l as [|((r, c), v) l IH]; intro st; cbn [send_all]; [apply reach_refl|].
    pose proof (reach_send st i r v c) as X. destruct (send t e st i r v c) as [st'|st']; cbn in X; auto. eapply reach_trans; eauto.
  Qed.
  Lemma reach_out i o st : reach st (fst (do_out t e i o st)).
  Proof.
    destruct o as [c v|l]; unfold do_out; [apply reach_send_all|].
    pose proof (reach_op (NConn i) st I) as X. cbn [nstep] in X. destruct (active_connected t e st i) as (js, st1). cbn [snd] in X.
    eapply reach_trans; [exact X|apply reach_send_all].
  Qed.
  Lemma reach_outs i os : forall st, reach st (fst (do_outs t e i os st)).
  Proof.
    induction os as [|o os IH]; intro st; cbn [do_outs]; [apply reach_refl|].
    pose proof (reach_out i o st) as X. destruct (do_out t e i o st) as (st', [|]); cbn in X; auto. eapply reach_trans; eauto.
  Qed.
  Lemma reach_body ph i w : polite_phase ph -> reach (snd w) (snd (fst (do_body t e ph i w))).
  Proof.
    intro H. destruct w as (d, st). destruct ph as [f|f]; cbn [polite_phase] in H; cbn [do_body].
    - destruct (f i (priv_of (n_agents st i), d)) as [(os, (p, d'))|] eqn:E; [|apply reach_refl].
      assert (X : reach st (upd_agent i (put_priv p) st)) by (destruct (local_ops i (f i) st d os p d' (H i) E) as (ops & F & ->); exists ops; auto).
      pose proof (reach_outs i os (upd_agent i (put_priv p) st)) as Y. destruct (do_outs t e i os _) as (st', b). cbn in *. eapply reach_trans; eauto.
    - destruct (f i (inbox_of st i) (priv_of (n_agents st i), d)) as [(u, (p, d'))|] eqn:E; [|apply reach_refl].
      destruct (local_ops i (f i (inbox_of st i)) st d u p d' (H i _) E) as (ops & F & X). exists ops. auto.
  Qed.
  Lemma reach_each body l : (forall i w, reach (snd w) (snd (fst (body i w)))) -> forall w : pworld, reach (snd w) (snd (fst (for_each body l w))).
  Proof.
    intro H. induction l as [|i l IH]; intro w; cbn [for_each]; [apply reach_refl|].
    pose proof (H i w) as X. destruct (body i w) as (w', [|]); cbn in X; auto. eapply reach_trans; eauto.
  Qed.
  Lemma reach_phase ph w : polite_phase ph -> reach (snd w) (snd (fst (do_phase t e ph w))).
  Proof.
    intro H. unfold do_phase. pose proof (reach_op NQuery (snd w) I) as X. cbn [nstep] in X. destruct (active_agents t e (snd w)) as (act, st). cbn [snd] in X.
    eapply reach_trans; [exact X|]. apply (reach_each (do_body t e ph) act (fun i w => reach_body ph i w H) (fst w, st)).
  Qed.
  Lemma reach_phases phs : Forall polite_phase phs -> forall w, reach (snd w) (snd (fst (do_phases t e phs w))).
  Proof.
    induction phs as [|ph phs IH]; intros H w; cbn [do_phases]; [apply reach_refl|]. inversion H; subst.
    pose proof (reach_phase ph w H2) as X. destruct (do_phase t e ph w) as (w', [|]); cbn in X; auto. eapply reach_trans; eauto.
  Qed.
  Lemma p2p_client N init phs : (forall k, Forall polite_phase (phs k)) -> client_code t e (p2p t e N init phs).
  Proof. intros H k w. apply (reach_phases (phs k) (H k) w). Qed.

  (** histories are not looked at *)
  Definition up := @world_upto_hist vec nat.
  Lemma up_priv st st' i : net_upto_hist st st' -> priv_of (n_agents st' i) = priv_of (n_agents st i) /\ inbox_of st' i = inbox_of st i.
  Proof. intros (U & _). destruct (U i) as (A & B & C & D & _). unfold priv_of, inbox_of. now rewrite A, B, C, D. Qed.
  Lemma up_put st st' i p : net_upto_hist st st' -> net_upto_hist (upd_agent i (put_priv p) st) (upd_agent i (put_priv p) st').
  Proof. apply upto_upd. intros g g' (A & B & C & D & E & F & G & H). repeat split; auto. Qed.
  Lemma up_send_all i l : forall st st', net_upto_hist st st' ->
    net_upto_hist (fst (send_all t e i l st)) (fst (send_all t e i l st')) /\ snd (send_all t e i l st) = snd (send_all t e i l st').
  Proof.
    induction l as [|((r, c), v) l IH]; intros st st' H; cbn [send_all]; [auto|].
    pose proof (upto_send vec t e i r v c st st' H) as X. destruct (send t e st i r v c), (send t e st' i r v c); cbn in X; try contradiction; auto.
  Qed.
  Lemma up_out i o st st' : net_upto_hist st st' ->
    net_upto_hist (fst (do_out t e i o st)) (fst (do_out t e i o st')) /\ snd (do_out t e i o st) = snd (do_out t e i o st').
  Proof.
    intro H. destruct o as [c v|l]; unfold do_out; [now apply up_send_all|]. destruct (upto_conn vec t e st st' i H) as (A & B).
    destruct (active_connected t e st i) as (js, s1), (active_connected t e st' i) as (js', s1'). cbn in *. subst js'. now apply up_send_all.
  Qed.
  Lemma up_outs i os : forall st st', net_upto_hist st st' ->
    net_upto_hist (fst (do_outs t e i os st)) (fst (do_outs t e i os st')) /\ snd (do_outs t e i os st) = snd (do_outs t e i os st').
  Proof.
    induction os as [|o os IH]; intros st st' H; cbn [do_outs]; [auto|]. destruct (up_out i o st st' H) as (A & B).
    destruct (do_out t e i o st) as (s1, [|]), (do_out t e i o st') as (s1', [|]); cbn in *; try discriminate; auto.
  Qed.
  Lemma up_body ph i w w' : up w w' -> up (fst (do_body t e ph i w)) (fst (do_body t e ph i w')) /\ snd (do_body t e ph i w) = snd (do_body t e ph i w').
  Proof.
    destruct w as (d, st), w' as (d', st'). intros (E & H). cbn in E. subst d'. cbn [snd] in H. destruct (up_priv st st' i H) as (P & Q).
    destruct ph as [f|f]; cbn [do_body]; rewrite P, ?Q.
    - destruct (f i _) as [(os, (p, d'))|]; [|split; [split|]; auto]. destruct (up_outs i os _ _ (up_put st st' i p H)) as (A & B).
      destruct (do_outs t e i os (upd_agent i (put_priv p) st)) as (s1, b), (do_outs t e i os (upd_agent i (put_priv p) st')) as (s1', b').
      cbn in *. split; [split|]; auto.
    - destruct (f i _ _) as [(u, (p, d'))|]; split; try split; auto. cbn. now apply up_put.
  Qed.
  Lemma up_each body l : (forall i w w', up w w' -> up (fst (body i w)) (fst (body i w')) /\ snd (body i w) = snd (body i w')) ->
    forall w w' : pworld, up w w' -> up (fst (for_each body l w)) (fst (for_each body l w')) /\ snd (for_each body l w) = snd (for_each body l w').
  Proof.
    intro HB. induction l as [|i l IH]; intros w w' H; cbn [for_each]; [auto|]. destruct (HB i w w' H) as (A & B).
    destruct (body i w) as (w1, [|]), (body i w') as (w1', [|]); cbn in *; try discriminate; auto.
  Qed.
  Lemma up_phases phs : forall w w', up w w' -> up (fst (do_phases t e phs w)) (fst (do_phases t e phs w')) /\ snd (do_phases t e phs w) = snd (do_phases t e phs w').
  Proof.
    induction phs as [|ph phs IH]; intros w w' H; cbn [do_phases]; [auto|].
    assert (X : up (fst (do_phase t e ph w)) (fst (do_phase t e ph w')) /\ snd (do_phase t e ph w) = snd (do_phase t e ph w')).
    { unfold do_phase. destruct H as (E & H). destruct (upto_active vec t e (snd w) (snd w') H) as (A & B).
      destruct (active_agents t e (snd w)) as (l, s1), (active_agents t e (snd w')) as (l', s1'). cbn in *. subst l'.
      apply up_each; [|split; auto]. intros. now apply up_body. }
    destruct X as (A & B). destruct (do_phase t e ph w) as (w1, [|]), (do_phase t e ph w') as (w1', [|]); cbn in *; try discriminate; auto.
  Qed.
  Lemma p2p_agnostic N init phs : hist_agnostic (p2p t e N init phs).
  Proof. intros k w w' H. now apply (up_phases (phs k)). Qed.

  (** *** federated *)
  Variable sv : agent_id.
  Definition Fpol {A} (m : F A) : Prop := forall w, reach (snd w) (snd (fst (m w))).
  Definition Fagn {A} (m : F A) : Prop := forall w w', up w w' -> up (fst (m w)) (fst (m w')) /\ snd (m w) = snd (m w').
  Definition Fok {A} (m : F A) : Prop := Fpol m /\ Fagn m.
  Lemma Fok_ret {A} (a : A) : Fok (fret a).
  Proof. split; [intro w; apply reach_refl|intros w w' H; auto]. Qed.
  Lemma Fok_bind {A B} (m : F A) (f : A -> F B) : Fok m -> (forall a, Fok (f a)) -> Fok (fbind m f).
  Proof.
    intros (P & Q) H. split.
    - intro w. unfold fbind. specialize (P w). destruct (m w) as (w', [a|]); cbn in P; auto. eapply reach_trans; [exact P|]. apply (proj1 (H a)).
    - intros w w' U. unfold fbind. destruct (Q w w' U) as (A1 & A2). destruct (m w) as (w1, o), (m w') as (w1', o'). cbn in A1, A2. subst o'.
      destruct o as [a|]; auto. now apply (proj2 (H a)).
  Qed.
  Lemma Fok_local {A} i (f : inbox -> L A) : (forall inb, polite (f inb)) -> Fok (local i f).
  Proof.
    intro H. split.
    - intros (d, st). unfold local. destruct (f _ _) as [(a, (p, d'))|] eqn:E; [|apply reach_refl].
      destruct (local_ops i (f (inbox_of st i)) st d a p d' (H _) E) as (ops & F & X). exists ops. auto.
    - intros (d, st) (d', st') (E & U). cbn in E. subst d'. cbn [snd] in U. destruct (up_priv st st' i U) as (P & Q). unfold local. rewrite P, Q.
      destruct (f _ _) as [(a, (p, d'))|]; split; try split; auto. cbn. now apply up_put.
  Qed.
  Lemma Fok_sendf s r c v : Fok (sendf t e s r c v).
  Proof.
    split.
    - intro w. unfold sendf. pose proof (reach_send (snd w) s r (Some v) c) as X. destruct (send _ _ _ _ _ _ _); exact X.
    - intros w w' (E & U). unfold sendf. pose proof (upto_send vec t e s r (Some v) c _ _ U) as X.
      destruct (send t e (snd w) s r (Some v) c), (send t e (snd w') s r (Some v) c); cbn in X; try contradiction; split; try split; auto.
  Qed.
  Lemma Fok_uploads i l : Fok (uploads t e sv i l).
  Proof. induction l as [|(c, v) l IH]; cbn [uploads]; [apply Fok_ret|]. apply Fok_bind; [apply Fok_sendf|auto]. Qed.
  Lemma Fok_fall l body : (forall i, Fok (body i)) -> Fok (fall l body).
  Proof. intro H. induction l as [|i l IH]; cbn [fall]; [apply Fok_ret|]. apply Fok_bind; auto. Qed.
  Lemma reach_record sel : forall st, reach st (record sel st).
  Proof. unfold record. induction sel as [|i sel IH]; intro st; cbn [fold_left]; [apply reach_refl|]. eapply reach_trans; [apply (reach_op (NSel i) st I)|]. apply IH. Qed.
  Lemma up_record sel : forall st st' : net vec, net_upto_hist st st' -> net_upto_hist (record sel st) (record sel st').
  Proof.
    unfold record. induction sel as [|i sel IH]; intros st st' H; cbn [fold_left]; auto. apply IH. apply upto_upd; auto.
    intros g g' (A & B & C & D & E & F & G & K). repeat split; auto. cbn. now rewrite K.
  Qed.
  Lemma Fok_select sch k : Fok (select_clients t e sch k).
  Proof.
    split.
    - intros (d, st). unfold select_clients. pose proof (reach_op NQuery st I) as X. cbn [nstep] in X.
      destruct (active_agents t e st) as (act, st1). cbn [snd] in X. destruct act; auto. eapply reach_trans; [exact X|]. apply reach_record.
    - intros (d, st) (d', st') (E & U). cbn in E. subst d'. cbn [snd] in U. unfold select_clients. destruct (upto_active vec t e st st' U) as (A & B).
      destruct (active_agents t e st) as (act, s1), (active_agents t e st') as (act', s1'). cbn in A, B. subst act'.
      destruct act; split; try split; auto. cbn. now apply up_record.
  Qed.
  Lemma Fok_with sel : Fok (with_broadcast sv sel).
  Proof.
    split; [intro w; apply reach_refl|]. intros w w' U. split; auto. cbn. f_equal. apply filter_ext. intro i. unfold has_broadcast.
    destruct U as (_ & U). now rewrite (proj2 (up_priv _ _ i U)).
  Qed.
  Definition polite_alg (A : fedalg) : Prop :=
    polite (f_pre A) /\ polite (f_payload A) /\ (forall i b, polite (f_client A i b)) /\ (forall P inb, polite (f_agg A P inb)).
  Lemma polite_broadcast inb : polite (server_broadcast_of sv inb).
  Proof. intros s a s' E. unfold server_broadcast_of in E. destruct (dget _ _ _); [|discriminate]. injection E as <- <-. now exists []. Qed.
  Lemma Fok_round A sch k : polite_alg A -> Fok (fed_round t e sv A sch k).
  Proof.
    intros (P1 & P2 & P3 & P4). unfold fed_round. apply Fok_bind; [now apply Fok_local|]. intros _. apply Fok_bind; [apply Fok_select|]. intro sel.
    destruct sel; [apply Fok_ret|]. apply Fok_bind; [now apply Fok_local|]. intro p. apply Fok_bind; [apply Fok_sendf|]. intros _.
    apply Fok_bind; [apply Fok_with|]. intro part. destruct part; [apply Fok_ret|]. apply Fok_bind; [|intro; now apply Fok_local].
    apply Fok_fall. intro i. unfold client_round. apply Fok_bind; [|intro; apply Fok_uploads]. apply Fok_local. intro inb.
    apply polite_bind; [apply polite_broadcast|]. intro b. apply P3.
  Qed.
  Lemma fed_ok N init round : (forall k, Fok (round k)) -> client_code t e (fed N init round) /\ hist_agnostic (fed N init round).
  Proof.
    intro H. split.
    - intros k w. destruct (H k) as (P & _). specialize (P w). cbn [fed al_step]. unfold fstep. destruct (round k w) as (w', r). exact P.
    - intros k w w' U. destruct (H k) as (_ & Q). specialize (Q w w' U). cbn [fed al_step]. unfold fstep.
      destruct (round k w) as (w1, r), (round k w') as (w1', r'). cbn in *. destruct Q as (Q1 & ->). auto.
  Qed.

  (** *** the algorithms *)
  Variables (grad : nat -> agent_id -> vec -> vec) (prox : nat -> agent_id -> vec -> R -> vec).
  Lemma polite_sarah W m sg batch a q k : Forall polite_phase (sarah W m sg batch a q k).
  Proof.
    assert (R : Forall polite_phase (sarah_rounds W a)) by (unfold sarah_rounds; repeat constructor; cbn [polite_phase]; intros; politely).
    unfold sarah. constructor; [cbn [polite_phase]; intros; politely|]. apply Forall_app. split; [exact R|].
    induction q as [|q IH]; cbn [sarah_inner]; [constructor|]. apply Forall_app. split; [|exact IH].
    constructor; [|exact R]. unfold sarah_estimate. cbn [polite_phase]. intros. politely.
  Qed.
  Lemma p2p_class_ok N A : p2p_class t e grad prox N A -> client_code t e A /\ hist_agnostic A.
  Proof.
    intro C. destruct C; split; try apply p2p_agnostic; apply p2p_client; intro k;
      unfold dgd, atc, simple_gt, atct, aug_dgm, track_round1, extra, nids, ed, wang_elia, led, kgt, prox_skip, admm, lt_admm, atg, saga, gt_vr, lt_admm_vr, ltvr_local, relax, relax_add;
      try (apply polite_sarah); try (destruct k); try match goal with c : nat -> bool |- _ => destruct (c _) end; cbn [app]; repeat constructor; cbn [polite_phase]; intros; politely.
  Qed.
  Lemma polite_nesterov n i a rho mom v : forall u w, polite (nesterov_steps grad n i a rho mom v u w).
  Proof. induction n as [|n IH]; intros; cbn [nesterov_steps]; politely. apply IH. Qed.
  Lemma polite_adam n i a rho b1 b2 eps v : forall l m s w, polite (adam_steps grad n l i a rho b1 b2 eps v m s w).
  Proof. induction n as [|n IH]; intros; cbn [adam_steps]; politely. apply IH. Qed.
  Lemma polite_nova n a beta mu i ref : forall s, polite (nova_steps grad n a beta mu i ref s).
  Proof. induction n as [|n IH]; intros; cbn [nova_steps]; unfold nova_step; politely; apply IH. Qed.
  Lemma polite_fed A : (exists K a, A = fedavg_alg grad K a) \/ (exists K a mu, A = fedprox_alg grad K a mu) \/
    (exists K a b1 eps eta Phi, A = fedopt_alg grad K a b1 eps eta Phi) \/ (exists K a eta, A = scaffold_alg t grad K a eta) \/
    (exists K a al, A = feddyn_alg t grad K a al) \/ (exists steps count a beta mu smom, A = fednova_alg grad steps count a beta mu smom) \/
    (exists sol K a rho, A = fedlt_alg t sv grad prox sol K a rho) -> polite_alg A.
  Proof.
    intros [(K & a & ->)|[(K & a & mu & ->)|[(K & a & b1 & eps & eta & Phi & ->)|[(K & a & eta & ->)|[(K & a & al & ->)|[(steps & count & a & beta & mu & smom & ->)|(sol & K & a & rho & ->)]]]]]];
    (split; [|split; [|split]]); intros;
    cbn [f_pre f_payload f_client f_agg fedavg_alg fedprox_alg fedopt_alg scaffold_alg feddyn_alg fednova_alg fedlt_alg];
    unfold agg_average, fedopt_agg, scaffold_client, scaffold_agg, feddyn_client, feddyn_agg, fednova_client, fednova_agg, fedlt_pre, fedlt_client, fedlt_agg, fedlt_solve;
    politely; try apply polite_nesterov; try apply polite_adam; try apply polite_nova.
  Qed.
  Lemma fedpd_ok steps a eta coin k : Fok (fedpd_round t e sv grad steps a eta coin k).
  Proof.
    unfold fedpd_round. apply Fok_bind; [apply Fok_select|]. intro part. destruct part; [apply Fok_ret|]. apply Fok_bind.
    { apply Fok_fall. intro i. apply Fok_local. intro inb. unfold fedpd_client. politely. }
    intros _. destruct (coin k); [|apply Fok_ret]. apply Fok_bind.
    { apply Fok_fall. intro i. apply Fok_bind; [|intro; apply Fok_sendf]. apply Fok_local. intro. politely. }
    intros _. unfold fedpd_aggregate. apply Fok_bind. { apply Fok_local. intro. politely. }
    intros [x|]; [|apply Fok_ret]. apply Fok_bind; [apply Fok_sendf|]. intros _. apply Fok_fall. intro i. apply Fok_local. intro. politely.
  Qed.
  Lemma fed_class_ok sch N A : fed_class t e grad prox sv sch N A -> client_code t e A /\ hist_agnostic A.
  Proof. intro C. destruct C; apply fed_ok; intro k; try apply Fok_round; try apply fedpd_ok; apply polite_fed; repeat (first [now eexists; eauto 10 | left; now eauto 10 | right]). Qed.
End Client.
