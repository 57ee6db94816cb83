(** Networks commute with a change of the type of arrays. *)
From Coq Require Import String List Bool Arith ZArith QArith Qcanon FunctionalExtensionality.
From Verif.Model Require Import PyDict History Messages Network Runner P2PShared.
From Verif.Spec Require Import P2PSharedSpec.
Import ListNotations.
Open Scope nat_scope.

Section M.
  Context {A B : Type} (f : A -> B).
  Notation M := (map_net f).

  Lemma mv_get {K} (eqb : K -> K -> bool) d k : dget eqb (map_vals f d) k = option_map f (dget eqb d k).
  Proof. induction d as [|[k' v] d IH]; cbn; auto. destruct (eqb k k'); auto. Qed.
  Lemma mv_mem {K} (eqb : K -> K -> bool) d k : dmem eqb (map_vals f d) k = dmem eqb d k.
  Proof. unfold dmem. rewrite mv_get. destruct (dget eqb d k); reflexivity. Qed.
  Lemma mv_set {K} (eqb : K -> K -> bool) d k v : dset eqb (map_vals f d) k (f v) = map_vals f (dset eqb d k v).
  Proof. induction d as [|[k' v'] d IH]; cbn; auto. destruct (eqb k k'); cbn; auto. f_equal. exact IH. Qed.
  Lemma ms_get (m : store A) c : dget String.eqb (map_store f m) c = option_map (map_vals f) (dget String.eqb m c).
  Proof. induction m as [|[k' v] d IH]; cbn; auto. destruct (String.eqb c k'); auto. Qed.
  Lemma ms_set (m : store A) c b : dset String.eqb (map_store f m) c (map_vals f b) = map_store f (dset String.eqb m c b).
  Proof. induction m as [|[k' v'] d IH]; cbn; auto. destruct (String.eqb c k'); cbn; auto. f_equal. exact IH. Qed.
  Lemma ms_put (m : store A) s v c : s_put (map_store f m) s (f v) c = map_store f (s_put m s v c).
  Proof.
    unfold s_put. unfold dmem. rewrite ms_get. destruct (dget String.eqb m c) eqn:E; cbn [option_map].
    - rewrite ms_get, E. cbn [option_map]. now rewrite mv_set, ms_set.
    - change (@nil (agent_id * B)) with (map_vals f (@nil (agent_id * A))). rewrite ms_set, ms_get.
      destruct (dget String.eqb (dset String.eqb m c []) c); cbn [option_map]; auto. now rewrite mv_set, ms_set.
  Qed.
  Lemma ms_channel (m : store A) c : s_by_channel (map_store f m) c = map_vals f (s_by_channel m c).
  Proof. unfold s_by_channel. rewrite ms_get. destruct (dget String.eqb m c); reflexivity. Qed.
  Lemma mh_write h it v : h_write (map_hist f h) (it, f v) = map_hist f (h_write h (it, v)).
  Proof.
    unfold h_write, h_set. cbn [fst snd map_hist h_dict h_keys]. destruct (Z.ltb it 0); auto. rewrite mv_mem, mv_set.
    destruct (dmem Z.eqb (h_dict h) it); reflexivity.
  Qed.
  Lemma m_snapshot p it fo a : snapshot p it fo (map_agent f a) = map_agent f (snapshot p it fo a).
  Proof.
    unfold snapshot. cbn [map_agent a_x]. destruct (a_x a) as [x|]; cbn [option_map]; auto. destruct (fo || (it mod p =? 0)); auto.
    unfold set_hist. cbn [map_agent a_x a_hist a_aux a_msgs a_nx a_sent a_recv a_drop a_nsel]. rewrite mh_write. reflexivity.
  Qed.
  Lemma m_initialize x aux a : initialize (Some (f x)) (map_aux f aux) (map_agent f a) = map_agent f (initialize (Some x) aux a).
  Proof. reflexivity. Qed.

  Lemma m_upd i g g' st : (forall a, g' (map_agent f a) = map_agent f (g a)) -> upd_agent i g' (M st) = M (upd_agent i g st).
  Proof.
    intro H. unfold upd_agent, map_net. cbn [n_agents n_iter n_cache n_conn n_draws n_log]. f_equal.
    apply functional_extensionality. intro a. unfold upd. destruct (Nat.eqb a i); auto.
  Qed.

  Variables (eA : env A) (eB : env B).
  Hypothesis Eact : e_act eB = e_act eA.
  Hypothesis Edrop : e_dropd eB = e_dropd eA.
  Hypothesis Ecomp : forall d s v, e_comp eB d s (f v) = f (e_comp eA d s v).
  Hypothesis Esize : forall s v, e_csize eB s (f v) = e_csize eA s v.
  Hypothesis Enoise : forall d s, e_noise eB d s = option_map (fun g i => f (g i)) (e_noise eA d s).
  Hypothesis Eadd : forall u v, e_add eB (f u) (f v) = f (e_add eA u v).
  Variable t : topo.

  Lemma m_act it l : forall d, act_filter eB it l d = act_filter eA it l d.
  Proof. induction l as [|a l IH]; intro d; cbn [act_filter]; auto. rewrite Eact, IH. reflexivity. Qed.
  Lemma m_active st : active_agents t eB (M st) = (fst (active_agents t eA st), M (snd (active_agents t eA st))).
  Proof.
    unfold active_agents. cbn [map_net n_cache n_iter n_draws n_conn n_agents n_log]. destruct (n_cache st); auto.
    rewrite m_act. destruct (act_filter eA (n_iter st) (agents t) (n_draws st)) as [l d]. cbn [fst snd].
    unfold map_net. cbn [n_cache n_iter n_draws n_conn n_agents n_log]. do 2 f_equal. rewrite map_app, map_rev, map_map. reflexivity.
  Qed.
  Lemma m_conn st a : active_connected t eB (M st) a = (fst (active_connected t eA st a), M (snd (active_connected t eA st a))).
  Proof.
    unfold active_connected. cbn [map_net n_conn]. destruct (dget Nat.eqb (n_conn st) a); auto. rewrite m_active.
    destruct (active_agents t eA st) as [act st1]. reflexivity.
  Qed.
  Lemma m_allowed st s : allowed t eB (M st) s = (fst (allowed t eA st s), M (snd (allowed t eA st s))).
  Proof.
    unfold allowed. destruct (t_server t) as [sv|]; [|apply m_conn]. destruct (Nat.eqb s sv); [apply m_conn|].
    cbn [map_net n_draws n_iter]. rewrite Eact. reflexivity.
  Qed.
  Lemma m_drop s l : forall d, drop_filter eB s l d = drop_filter eA s l d.
  Proof. induction l as [|a l IH]; intro d; cbn [drop_filter]; auto. rewrite Edrop, IH. reflexivity. Qed.
  Lemma m_deliver s c p m nz inc l : forall i st,
    deliver eB s c (f p) (f m) (option_map (fun g i => f (g i)) nz) inc i l (M st) = M (deliver eA s c p m nz inc i l st).
  Proof.
    induction l as [|r l IH]; intros i st; cbn [deliver]; auto.
    assert (V : noisy eB (f m) (option_map (fun g i => f (g i)) nz) i = f (noisy eA m nz i)). { destruct nz; cbn; auto. }
    rewrite V. rewrite <- IH. f_equal. rewrite (m_upd r (fun a => add_recv inc (set_msgs (s_put (a_msgs a) s (noisy eA m nz i) c) a))).
    - reflexivity.
    - intro a. unfold add_recv, set_msgs, map_agent. cbn [a_x a_hist a_aux a_msgs a_nx a_sent a_recv a_drop a_nsel]. rewrite ms_put. reflexivity.
  Qed.
  Lemma m_transmit st s rs m c : transmit t eB (M st) s rs (f m) c = M (transmit t eA st s rs m c).
  Proof.
    unfold transmit, counter_increment. rewrite Esize.
    rewrite (m_upd s (add_sent (Q2Qc (e_csize eA s m # t_size t) * Q2Qc (inject_Z (Z.of_nat (length rs))))%Qc)) by reflexivity.
    cbn [map_net n_draws]. rewrite m_drop. destruct (drop_filter eA s rs _) as [conf d].
    change (mkNet (fun a => map_agent f (n_agents ?X a)) _ _ _ _ _) with (M X).
    rewrite (m_upd s (add_drop (Q2Qc (e_csize eA s m # t_size t) * Q2Qc (inject_Z (Z.of_nat (length rs - length conf))))%Qc)) by reflexivity.
    rewrite Ecomp, Enoise. match goal with |- context [set_draws ?D (M ?X)] => change (set_draws D (M X)) with (M (set_draws D X)) end. apply m_deliver.
  Qed.
  Lemma m_send_bcast st s m c : t_server t = None -> send t eB (M st) s RNone (Some (f m)) c =
    match send t eA st s RNone (Some m) c with SOk st' => SOk (M st') | SErr st' => SErr (M st') end.
  Proof.
    intro SV. unfold send. rewrite SV. unfold send_base. destruct (negb (memb s (t_nodes t))); auto.
    rewrite m_conn. destruct (active_connected t eA st s) as [l st1]. cbn [fst snd]. rewrite m_allowed.
    destruct (allowed t eA st1 s) as [al st2]. cbn [fst snd]. destruct (forallb _ l); [|reflexivity]. now rewrite m_transmit.
  Qed.
  Lemma m_clear l : forall st, fold_left (fun st r => upd_agent r (fun a => set_msgs (s_clear (a_msgs a) None None) a) st) l (M st) =
    M (fold_left (fun st r => upd_agent r (fun a => set_msgs (s_clear (a_msgs a) None None) a) st) l st).
  Proof.
    induction l as [|r l IH]; intro st; cbn [fold_left]; auto. rewrite <- IH. f_equal. apply m_upd. reflexivity.
  Qed.
  Lemma m_step k st : step t k (M st) = M (step t k st).
  Proof. unfold step, clear_received. rewrite <- m_clear. reflexivity. Qed.
  Lemma m_snapshots {S S'} period (A1 : alg A S) (A2 : alg B S') it st : al_iters A1 = al_iters A2 ->
    snapshot_all t period A2 it (M st) = M (snapshot_all t period A1 it st).
  Proof.
    intro E. unfold snapshot_all. rewrite <- E. revert st. induction (t_nodes t) as [|a l IH]; intro st; cbn [fold_left]; auto.
    rewrite <- IH. f_equal. apply m_upd. intro. apply m_snapshot.
  Qed.
End M.
