(** One step of each variance-reduced algorithm. *)
From Coq Require Import Reals String List Bool Arith ZArith Lia Lra FunctionalExtensionality Permutation.
From Verif.Model Require Import PyDict History Messages Network Runner Vec P2P P2PVR.
From Verif.Spec Require Import NetworkSpec P2PSpec P2PVRSpec.
From Verif.Proofs Require Import PyDictProofs NetworkProofs NetworkInv NetworkMore EmpiricalProofs RunnerProofs P2PLock P2PSteps P2PRuns P2PFixed.
Import ListNotations.
Open Scope R_scope.

(** tables *)
Lemma vmean_avg f l : vmean (map f l) = avg l f.
Proof.
  apply functional_extensionality. intro c. unfold vmean, vscal, avg. rewrite vsum_at, map_map, map_length. unfold Rdiv. ring.
Qed.
Lemma vmean_table n T : vmean (map snd (table n T)) = avg (seq 0 n) T.
Proof. unfold table. rewrite map_map. cbn [snd]. apply vmean_avg. Qed.
Lemma pick_table n T l : incl l (seq 0 n) -> pick (table n T) l = Some (map T l).
Proof.
  induction l as [|s l IH]; intro I; [reflexivity|]. cbn [pick map]. unfold table at 1. rewrite rows_dget by (apply I; now left).
  rewrite IH; [reflexivity|]. intros x Hx. apply I. now right.
Qed.
Lemma store_table n f l : forall T, incl l (seq 0 n) -> NoDup l ->
  store (table n T) (map (fun s => (s, f s)) l) = Some (table n (refresh l f T)).
Proof.
  induction l as [|s l IH]; intros T I ND; [reflexivity|]. cbn [map store].
  assert (Hs : In s (seq 0 n)) by (apply I; now left).
  assert (M : dmem Nat.eqb (table n T) s = true).
  { apply (dmem_In _ _ _ Nat.eqb_spec). unfold table, dkeys. rewrite map_map. cbn [fst]. now rewrite map_id. }
  rewrite M. unfold table at 1. rewrite rows_dset by (auto using seq_NoDup).
  inversion ND; subst. fold (table n (fun i => if Nat.eqb i s then f s else T i)). rewrite IH; auto; [|intros x Hx; apply I; now right].
  f_equal. unfold table. apply map_ext. intro x. f_equal. unfold refresh. cbn [existsb].
  destruct (Nat.eqb_spec x s); cbn [orb]; [subst|reflexivity].
  destruct (existsb (Nat.eqb s) l) eqn:E; [|reflexivity]. apply existsb_exists in E. destruct E as (y & Hy & E). apply Nat.eqb_eq in E. now subst.
Qed.

Section Steps.
  Variables (t : topo) (e : env vec).
  Hypothesis PT : p2p_topo t.
  Variable W : agent_id -> agent_id -> R.
  Variables (m : agent_id -> nat) (sg : agent_id -> nat -> vec -> vec) (batch : nat -> agent_id -> list nat).
  Hypothesis PB : proper m batch.
  Notation px st i := (priv_of (n_agents st i)).
  Notation WF := (P2PSteps.WF t PT).
  Notation SV := (P2PSteps.SV t PT).

  Ltac begin act s1 := match goal with |- context [do_phases t e ?phs (?d, step t ?k ?st)] =>
    let E := fresh in let C := fresh "C" in let ND := fresh "ND" in let L := fresh "L" in let P := fresh "P" in
    destruct (P2PSteps.start t e PT phs k d st) as (s1 & E & C & ND & L & P); [discriminate|];
    rewrite E; clear E; set (act := active_at t e k st) in *; cbn [do_phases app] end.
  Ltac nodes := match goal with C : cfg t ?act _, H : In ?i ?act |- In ?i (t_nodes t) => exact (P2PSteps.act_nodes t PT _ _ _ C H) | _ => auto end.
  Ltac vrun := unfold batch_gradient, batch_rows, rows_at, rows_put; lrun;
    repeat first [ rewrite pick_table by apply PB | rewrite store_table by apply PB | progress lrun ].
  Ltac run_vr := do 2 eexists; vrun; split; [reflexivity|]; vrun.

  Notation Xis X := (fun i p => v_x p = Some (X i)).
  Definition Tis (k : string) (T : agent_id -> nat -> vec) (i : agent_id) (p : priv) : Prop :=
    dget String.eqb (v_aux p) k = Some (AMap (table (m i) (T i))).
  Notation full := (full_gradient m sg).

  Lemma grad_on_avg i l x : grad_on sg i l x = avg l (fun s => sg i s x).
  Proof. apply vmean_avg. Qed.
  Lemma grad_on_full i x : grad_on sg i (all m i) x = full i x.
  Proof. apply vmean_avg. Qed.
  Lemma saga_est_eq i B T x : vadd (vsub (grad_on sg i B x) (vmean (map (T i) B))) (vmean (map snd (table (m i) (T i)))) = saga_est m sg i B (T i) x.
  Proof. rewrite vmean_table, vmean_avg, grad_on_avg. reflexivity. Qed.
  Lemma svrg_est_eq i B ta x : vadd (vsub (grad_on sg i B x) (grad_on sg i B ta)) (full i ta) = svrg_est m sg i B ta x.
  Proof. rewrite !grad_on_avg. reflexivity. Qed.
  Lemma sarah_est_eq i B xp v x : vadd (vsub (grad_on sg i B x) (grad_on sg i B xp)) v = sarah_est sg i B xp v x.
  Proof. rewrite !grad_on_avg. reflexivity. Qed.

  Section Faithful.
  Hypothesis FA : faithful e.

  Lemma saga_step a k d st X Y G T :
    (forall i, In i (t_nodes t) -> state_is st i (X i) /\ aux_is st i "y" (Y i) /\ aux_is st i "g" (G i) /\ auxmap_is st i "z_grads" (table (m i) (T i))) ->
    exists d' st' D1 D2 B B' Y', let G' := fun i => saga_est m sg i (B i) (T i) (X i) in
      do_phases t e (saga W sg batch a k) (d, step t k st) = ((d', st'), false) /\
      delivery t e (active_at t e k st) D1 /\ delivery t e (active_at t e k st) D2 /\
      (forall i, In i (active_at t e k st) -> let x' := mix W (D2 i) (fun j => vsub (X j) (vscal a (Y' j))) i in
         drawn batch i (B i) /\ drawn batch i (B' i) /\
         Y' i = mix W (D1 i) (fun j => vsub (vadd (Y j) (G' j)) (G j)) i /\
         state_is st' i x' /\ aux_is st' i "y" (Y' i) /\ aux_is st' i "g" (G' i) /\
         auxmap_is st' i "z_grads" (table (m i) (refresh (B' i) (fun s => sg i s x') (T i)))) /\
      (forall i, ~ In i (active_at t e k st) -> untouched st st' i).
  Proof.
    intros HX. unfold saga. begin act s1.
    assert (Q1 : forall i, In i act -> Xis X i (px s1 i) /\ Ais "y" Y i (px s1 i) /\ Ais "g" G i (px s1 i) /\ Tis "z_grads" T i (px s1 i)).
    { intros i Hi. rewrite P. apply HX. nodes. }
    edestruct (upd_phase t e act s1 d) with (Q := fun i p => exists B, drawn batch i B /\ Xis X i p /\ Ais "y" Y i p /\ Ais "g_old" G i p /\ Tis "z_grads" T i p /\
        dget String.eqb (v_aux p) "g"%string = Some (AArr (saga_est m sg i B (T i) (X i))))
      as (d2 & s2 & -> & C2 & Q2' & N2 & M2 & _); auto.
    { unfold Ais, Tis in *. body Q1. run_vr. exists (batch n i). split; [exists n; reflexivity|]. rewrite saga_est_eq. auto 8. }
    apply (choice_list _ []) in Q2'. destruct Q2' as (B & Q2).
    set (G' := fun i => saga_est m sg i (B i) (T i) (X i)). set (U := fun j => vsub (vadd (Y j) (G' j)) (G j)).
    edestruct (bcast_phase t e WF SV FA act s2 d2) with (c := "gradient_tracker"%string) (V := U)
      (Q := fun i p => Xis X i p /\ Ais "g" G' i p /\ Ais "y_plus_delta_g" U i p /\ Tis "z_grads" T i p)
      as (d3 & s3 & D1 & -> & C3 & Q3 & N3 & DE1 & I3 & O3 & _); auto.
    { intros r s Hr. unfold lk. rewrite M2. now apply L. }
    { unfold Ais, Tis in *. body Q2. run_vr. auto. }
    set (Y' := fun i => mix W (D1 i) U i).
    edestruct (upd_phase t e act s3 d3) with (Q := fun i p => Xis X i p /\ Ais "g" G' i p /\ Ais "y" Y' i p /\ Tis "z_grads" T i p)
      as (d4 & s4 & -> & C4 & Q4 & N4 & M4 & _); auto.
    { unfold Ais, Tis in *. body Q3. run_vr. rewrite I3 by nodes. rewrite wavg_mix. auto. }
    set (V := fun j => vsub (X j) (vscal a (Y' j))).
    edestruct (bcast_phase t e WF SV FA act s4 d4) with (c := "state"%string) (V := V)
      (Q := fun i p => Ais "g" G' i p /\ Ais "y" Y' i p /\ Ais "x_minus_alpha_y" V i p /\ Tis "z_grads" T i p)
      as (d5 & s5 & D2 & -> & C5 & Q5 & N5 & DE2 & I5 & O5 & _); auto.
    { intros r s Hr. unfold lk. rewrite M4. fold (lk s3 r "state"%string s). rewrite O3 by discriminate. unfold lk. rewrite M2. now apply L. }
    { unfold Ais, Tis in *. body Q4. run_vr. auto. }
    set (X' := fun i => mix W (D2 i) V i).
    edestruct (upd_phase t e act s5 d5) with (Q := fun i p => Xis X' i p /\ Ais "g" G' i p /\ Ais "y" Y' i p /\ Tis "z_grads" T i p)
      as (d6 & s6 & -> & C6 & Q6 & N6 & M6 & _); auto.
    { unfold Ais, Tis in *. body Q5. run_vr. rewrite I5 by nodes. rewrite wavg_mix. auto. }
    edestruct (upd_phase t e act s6 d6) with (Q := fun i p => exists B', drawn batch i B' /\ Xis X' i p /\ Ais "g" G' i p /\ Ais "y" Y' i p /\
        dget String.eqb (v_aux p) "z_grads"%string = Some (AMap (table (m i) (refresh B' (fun s => sg i s (X' i)) (T i)))))
      as (d7 & s7 & -> & C7 & Q7' & N7 & _); auto.
    { unfold Ais, Tis in *. body Q6. run_vr. exists (batch n i). split; [exists n; reflexivity|]. auto. }
    apply (choice_list _ []) in Q7'. destruct Q7' as (B' & Q7).
    exists d7, s7, D1, D2, B, B', Y'. split; auto. split; auto. split; auto. split.
    - intros i Hi. destruct (Q2 i Hi) as (X1 & _). destruct (Q7 i Hi) as (X2 & X3 & X4 & X5 & X6). repeat split; auto.
    - intros i Hi. apply untouched_px. rewrite N7, N6, N5, N4, N3, N2; auto.
  Qed.

  Lemma gt_vr_step (coin : nat -> agent_id -> bool) a k d st X Y V Ta :
    (forall i, In i (t_nodes t) -> state_is st i (X i) /\ aux_is st i "y" (Y i) /\ aux_is st i "v" (V i) /\ aux_is st i "tau" (Ta i) /\
       aux_is st i "full_grad_tau" (full i (Ta i))) ->
    exists d' st' D1 D2 B X', let Ta' := fun i => if coin k i then X' i else Ta i in let V' := fun i => svrg_est m sg i (B i) (Ta' i) (X' i) in
      do_phases t e (gt_vr W m sg batch coin a k) (d, step t k st) = ((d', st'), false) /\
      delivery t e (active_at t e k st) D1 /\ delivery t e (active_at t e k st) D2 /\
      (forall i, In i (active_at t e k st) ->
         drawn batch i (B i) /\ X' i = mix W (D1 i) (fun j => vsub (X j) (vscal a (Y j))) i /\
         state_is st' i (X' i) /\ aux_is st' i "y" (mix W (D2 i) (fun j => vsub (vadd (Y j) (V' j)) (V j)) i) /\ aux_is st' i "v" (V' i) /\
         aux_is st' i "tau" (Ta' i) /\ aux_is st' i "full_grad_tau" (full i (Ta' i))) /\
      (forall i, ~ In i (active_at t e k st) -> untouched st st' i).
  Proof.
    intros HX. unfold gt_vr. begin act s1. set (F := fun i => full i (Ta i)).
    assert (Q1 : forall i, In i act -> Xis X i (px s1 i) /\ Ais "y" Y i (px s1 i) /\ Ais "v" V i (px s1 i) /\ Ais "tau" Ta i (px s1 i) /\ Ais "full_grad_tau" F i (px s1 i)).
    { intros i Hi. rewrite P. apply HX. nodes. }
    set (U := fun j => vsub (X j) (vscal a (Y j))).
    edestruct (bcast_phase t e WF SV FA act s1 d) with (c := "state"%string) (V := U)
      (Q := fun i p => Ais "x_minus_eta_y" U i p /\ Ais "y" Y i p /\ Ais "v" V i p /\ Ais "tau" Ta i p /\ Ais "full_grad_tau" F i p)
      as (d2 & s2 & D1 & -> & C2 & Q2 & N2 & DE1 & I2 & O2 & _); auto.
    { unfold Ais in *. body Q1. run_vr. auto 8. }
    set (X' := fun i => mix W (D1 i) U i).
    edestruct (upd_phase t e act s2 d2) with (Q := fun i p => Xis X' i p /\ Ais "y" Y i p /\ Ais "v" V i p /\ Ais "tau" Ta i p /\ Ais "full_grad_tau" F i p)
      as (d3 & s3 & -> & C3 & Q3 & N3 & M3 & _); auto.
    { unfold Ais in *. body Q2. run_vr. rewrite I2 by nodes. rewrite wavg_mix. auto 8. }
    set (Ta' := fun i => if coin k i then X' i else Ta i). set (F' := fun i => full i (Ta' i)).
    edestruct (upd_phase t e act s3 d3) with (Q := fun i p => Xis X' i p /\ Ais "y" Y i p /\ Ais "v" V i p /\ Ais "tau" Ta' i p /\ Ais "full_grad_tau" F' i p)
      as (d4 & s4 & -> & C4 & Q4 & N4 & M4 & _); auto.
    { unfold Ais in *. body Q3. unfold F', Ta'. destruct (coin k i); run_vr; rewrite ?grad_on_full; auto 8. }
    edestruct (upd_phase t e act s4 d4) with (Q := fun i p => exists B, drawn batch i B /\ Xis X' i p /\ Ais "y" Y i p /\ Ais "v_old" V i p /\ Ais "tau" Ta' i p /\ Ais "full_grad_tau" F' i p /\
        dget String.eqb (v_aux p) "v"%string = Some (AArr (svrg_est m sg i B (Ta' i) (X' i))))
      as (d5 & s5 & -> & C5 & Q5' & N5 & M5 & _); auto.
    { unfold Ais in *. body Q4. run_vr. exists (batch n i). split; [exists n; reflexivity|]. unfold F'. rewrite svrg_est_eq. auto 8. }
    apply (choice_list _ []) in Q5'. destruct Q5' as (B & Q5).
    set (V' := fun i => svrg_est m sg i (B i) (Ta' i) (X' i)). set (Z := fun j => vsub (vadd (Y j) (V' j)) (V j)).
    edestruct (bcast_phase t e WF SV FA act s5 d5) with (c := "gradient_tracker"%string) (V := Z)
      (Q := fun i p => Xis X' i p /\ Ais "y_plus_delta_v" Z i p /\ Ais "v" V' i p /\ Ais "tau" Ta' i p /\ Ais "full_grad_tau" F' i p)
      as (d6 & s6 & D2 & -> & C6 & Q6 & N6 & DE2 & I6 & O6 & _); auto.
    { intros r s Hr. unfold lk. rewrite M5, M4, M3. fold (lk s2 r "gradient_tracker"%string s). rewrite O2 by discriminate. now apply L. }
    { unfold Ais in *. body Q5. run_vr. auto 8. }
    edestruct (upd_phase t e act s6 d6) with (Q := fun i p => Xis X' i p /\ dget String.eqb (v_aux p) "y"%string = Some (AArr (mix W (D2 i) Z i)) /\
        Ais "v" V' i p /\ Ais "tau" Ta' i p /\ Ais "full_grad_tau" F' i p)
      as (d7 & s7 & -> & C7 & Q7 & N7 & _); auto.
    { unfold Ais in *. body Q6. run_vr. rewrite I6 by nodes. rewrite wavg_mix. auto 8. }
    exists d7, s7, D1, D2, B, X'. split; auto. split; auto. split; auto. split.
    - intros i Hi. destruct (Q5 i Hi) as (X1 & _). destruct (Q7 i Hi) as (X2 & X3 & X4 & X5 & X6). repeat split; auto.
    - intros i Hi. apply untouched_px. rewrite N7, N6, N5, N4, N3, N2; auto.
  Qed.
  Notation corr be rho X Z := (fun i => vscal be (vsub (vscal (rho * deg t i) (X i)) (vsum (map (Z i) (t_adj t i))))).
  Lemma local_ok i ga co n0 : forall n s0 p d T x, seq s0 n = n0 ->
    dget String.eqb (v_aux p) "phi"%string = Some (AArr x) -> dget String.eqb (v_aux p) "r_grads"%string = Some (AMap (table (m i) T)) ->
    exists p' d' z T', lfor n0 (fun _ => ltvr_local sg batch i ga co) (p, d) = Some (tt, (p', d')) /\
      vr_steps m sg batch i ga co n x T z T' /\ v_x p' = v_x p /\
      dget String.eqb (v_aux p') "phi"%string = Some (AArr z) /\ dget String.eqb (v_aux p') "r_grads"%string = Some (AMap (table (m i) T')) /\
      (forall k, k <> "phi"%string -> k <> "r_grads"%string -> dget String.eqb (v_aux p') k = dget String.eqb (v_aux p) k).
  Proof.
    intros n. revert n0. induction n as [|n IH]; intros n0 s0 p d T x <- E1 E2.
    - exists p, d, x, T. cbn [seq lfor]. split; [reflexivity|]. split; [constructor|]. auto.
    - cbn [seq lfor].
      set (B := batch d i). set (x1 := vsub x (vadd (vscal ga (saga_est m sg i B T x)) co)).
      set (T1 := refresh B (fun s => sg i s x1) T).
      set (p1 := mkPriv (v_x p) (dset String.eqb (dset String.eqb (v_aux p) "phi"%string (AArr x1)) "r_grads"%string (AMap (table (m i) T1))) (v_nx p)).
      destruct (IH (seq (S s0) n) (S s0) p1 (S d) T1 x1 eq_refl) as (p' & d' & z & T' & A1 & A2 & A3 & A4 & A5 & A6).
      { unfold p1. cbn [v_aux]. rewrite dg_other by discriminate. apply dg_same. }
      { unfold p1. cbn [v_aux]. apply dg_same. }
      exists p', d', z, T'. split; [|split; [|split; [|split; [|split]]]]; auto.
      + unfold lbind at 1. unfold ltvr_local at 1, batch_gradient, rows_at, rows_put. lrun. fold B.
        rewrite pick_table by apply PB. lrun. change sample with nat. change agent_id with nat.
        replace (vadd (vsub (grad_on sg i B x) (vmean (map T B))) (vmean (map snd (table (m i) T)))) with (saga_est m sg i B T x)
          by (rewrite vmean_table, vmean_avg, grad_on_avg; reflexivity).
        fold x1. rewrite (store_table (m i) (fun s => sg i s x1) B) by apply PB. fold T1. lrun. exact A1.
      + econstructor; [exists d; reflexivity|reflexivity|exact A2].
      + intros k K1 K2. rewrite A6 by auto. unfold p1. cbn [v_aux]. now rewrite !dg_other by auto.
  Qed.

  Lemma ltvr_step v2 tau ga be rho al k d st X Z T :
    (forall i, In i (t_nodes t) -> state_is st i (X i) /\ auxmap_is st i "z_i" (rows t i (Z i)) /\ (v2 = true -> auxmap_is st i "r_grads" (table (m i) (T i)))) ->
    exists d' st' D X' T', do_phases t e (lt_admm_vr t m sg batch v2 tau ga be rho al k) (d, step t k st) = ((d', st'), false) /\
      delivery t e (active_at t e k st) D /\
      (forall i, In i (active_at t e k st) ->
         vr_steps m sg batch i ga (corr be rho X Z i) tau (X i) (if v2 then T i else fun s => sg i s (X i)) (X' i) (T' i) /\
         state_is st' i (X' i) /\ auxmap_is st' i "r_grads" (table (m i) (T' i)) /\
         auxmap_is st' i "z_i" (rows t i (fun j => if memb j (D i)
            then vsub (vscal (1 - al) (Z i j)) (vscal al (vsub (Z j i) (vscal (2 * rho) (X' j)))) else Z i j))) /\
      (forall i, ~ In i (active_at t e k st) -> untouched st st' i).
  Proof.
    intros HX. unfold lt_admm_vr. begin act s1.
    assert (Q1 : forall i, In i act -> Xis X i (px s1 i) /\ Mis t "z_i" Z i (px s1 i) /\ (v2 = true -> Tis "r_grads" T i (px s1 i))).
    { intros i Hi. rewrite P. apply HX. nodes. }
    edestruct (upd_phase t e act s1 d) with (Q := fun i p => exists xT : vec * (nat -> vec), 
        vr_steps m sg batch i ga (corr be rho X Z i) tau (X i) (if v2 then T i else fun s => sg i s (X i)) (fst xT) (snd xT) /\
        v_x p = Some (fst xT) /\ dget String.eqb (v_aux p) "r_grads"%string = Some (AMap (table (m i) (snd xT))) /\ Mis t "z_i" Z i p)
      as (d2 & s2 & -> & C2 & Q2' & N2 & M2 & _); auto.
    { unfold Tis, Mis in *. intros i n Hi. destruct (Q1 i Hi) as (E1 & E2 & E3). remember (px s1 i) as p eqn:Ep. clear Ep.
      set (p1 := mkPriv (v_x p) (dset String.eqb (v_aux p) "phi"%string (AArr (X i))) (v_nx p)).
      set (T0 := if v2 then T i else fun s => sg i s (X i)).
      assert (G : exists p2, (if v2 then lret tt else putm "r_grads" (full_table m sg i (X i))) (p1, n) = Some (tt, (p2, n)) /\
        v_x p2 = v_x p /\ dget String.eqb (v_aux p2) "phi"%string = Some (AArr (X i)) /\ dget String.eqb (v_aux p2) "r_grads"%string = Some (AMap (table (m i) T0)) /\
        dget String.eqb (v_aux p2) "z_i"%string = dget String.eqb (v_aux p) "z_i"%string).
      { unfold T0. destruct v2.
        - exists p1. unfold lret, p1. cbn [v_x v_aux]. rewrite dg_same, !dg_other by discriminate. auto 10.
        - eexists. unfold putm, p1. cbn [fst snd v_x v_aux v_nx]. split; [reflexivity|]. cbn [fst snd v_x v_aux v_nx].
          rewrite dg_other, dg_same, dg_same, !dg_other by discriminate. auto. }
      destruct G as (p2 & G1 & G2 & G3 & G4 & G5).
      destruct (local_ok i ga (vscal be (vsub (vscal (rho * deg t i) (X i)) (rows_sum (rows t i (Z i))))) (seq 0 tau) tau 0 p2 n T0 (X i) eq_refl G3 G4)
        as (p' & d' & z & T' & A1 & A2 & A3 & A4 & A5 & A6).
      exists (mkPriv (Some z) (v_aux p') (S (v_nx p'))), d'. split.
      - unfold lbind, getx, put, auxm. cbn [fst snd]. rewrite E1. cbn [fst snd v_aux]. rewrite dg_other by discriminate. rewrite E2. fold p1.
        rewrite G1. rewrite A1. unfold aux, setx. cbn [fst snd]. rewrite A4. reflexivity.
      - exists (z, T'). cbn [fst snd v_x v_aux]. unfold rows_sum, rows in A2. rewrite map_map in A2. cbn [snd] in A2.
        split; [exact A2|]. split; [reflexivity|]. split; [exact A5|]. rewrite A6 by discriminate. congruence. }
    apply (choice_list _ (vzero, fun _ => vzero)) in Q2'. destruct Q2' as (XT & Q2).
    set (X' := fun i => fst (XT i)). set (T' := fun i => snd (XT i)).
    edestruct (send_phase t e WF SV FA act s2 d2) with (O := fun i => [OEach [(dflt, rowmap (rows t i (Z i)) (fun zj => vsub zj (vscal (2 * rho) (X' i))))]])
       (Q := fun i p => Xis X' i p /\ Tis "r_grads" T' i p /\ Mis t "z_i" Z i p)
      as (d3 & s3 & -> & C3 & Q3 & N3 & A3 & R3 & _); auto.
    { intros i n Hi. split.
      - constructor; [|constructor]. intros c f j [[= <- <-]|[]] Hj. rewrite (rowmap_rows t) by auto. discriminate.
      - revert i n Hi. unfold Tis, Mis, X', T' in *. body Q2. run_vr. auto. }
    assert (L2 : forall c r s, In r (t_nodes t) -> lk s2 r c s = None). { intros c r s Hr. unfold lk. rewrite M2. now apply L. }
    pose proof WF as (_ & AD & NA & _).
    destruct (round_inbox t e WF act s2 s3 _ (fun s r => vsub (Z s r) (vscal (2 * rho) (X' s))) dflt C2 C3 (L2 _) A3 R3) as (D & DE & I3).
    { intros s r v _ (o & [<-|[]] & f & [[= <-]|[]] & E). unfold rowmap in E.
      destruct (row (rows t s (Z s)) r) as [z|] eqn:Er; [|discriminate]. injection E as <-.
      unfold row, rows in Er. pose proof Er as Er'. apply (dget_In _ _ _ Nat.eqb_spec) in Er'. apply in_map_iff in Er'.
      destruct Er' as (j & [= -> <-] & _). reflexivity. }
    { intros s r _ Hr. eexists. split; [left; reflexivity|]. eexists. split; [left; reflexivity|]. now rewrite (rowmap_rows t). }
    edestruct (upd_phase t e act s3 d3) with (Q := fun i p => Xis X' i p /\ Tis "r_grads" T' i p /\
        dget String.eqb (v_aux p) "z_i"%string = Some (AMap (rows t i (fun j => if memb j (D i)
            then vsub (vscal (1 - al) (Z i j)) (vscal al (vsub (Z j i) (vscal (2 * rho) (X' j)))) else Z i j))))
      as (d4 & s4 & -> & C4 & Q4 & N4 & _); auto.
    { unfold Tis, Mis in *. body Q3. rewrite I3 by nodes.
      destruct (lfor_rows relax (fun zj v => vsub (vscal (1 - al) zj) (vscal al v)) "z_i" al (t_adj t i) (fun j => vsub (Z j i) (vscal (2 * rho) (X' j)))
        (fun p n z j v zj => relax_ok "z_i" al p n z j v zj) (NA i) (D i) (Z i) p n) as (p' & E1 & E2 & E3 & E4); auto.
      - apply (DE i).
      - intros j Hj. now apply (DE i).
      - exists p', n. split; [exact E1|]. split; [congruence|]. split; [|exact E3]. rewrite E4 by discriminate. auto. }
    exists d4, s4, D, X', T'. split; auto. split; auto. split.
    - intros i Hi. split; [apply (Q2 i Hi)|]. destruct (Q4 i Hi) as (Y1 & Y2 & Y3). auto.
    - intros i Hi. apply untouched_px. rewrite N4, N3, N2; auto.
  Qed.
  End Faithful.
  (** *** Several rounds on one channel, on a reliable network *)
  Section Reliable.
  Hypothesis RE : reliable e.
  Lemma FAr : faithful e. Proof. destruct RE as (_ & A & B). split; auto. Qed.
  Notation heard := (P2PVRSpec.heard t).
  (** what is left of earlier rounds *)
  Definition left_over act st (c : channel) : Prop :=
    forall r s v, In r (t_nodes t) -> lk st r c s = Some v -> In r act /\ In s act /\ In s (t_adj t r).

  Lemma bcast_again act st d f Q (V : agent_id -> vec) c : NoDup act -> cfg t act st -> left_over act st c ->
    (forall i n, In i act -> exists p n', f i (priv_of (n_agents st i), n) = Some ([OBcast c (V i)], (p, n')) /\ Q i p) ->
    exists d' st', do_phase t e (PSend f) (d, st) = ((d', st'), false) /\ cfg t act st' /\
      (forall i, In i act -> Q i (px st' i)) /\ (forall i, ~ In i act -> px st' i = px st i) /\
      (forall M i, In i act -> wavg M i (V i) (inbox_of st' i c) = mix M (heard act i) V i) /\
      left_over act st' c /\ (forall r c' s, c' <> c -> lk st' r c' s = lk st r c' s).
  Proof.
    intros ND C LO H.
    destruct (send_phase t e WF SV FAr act st d f Q (fun i => [OBcast c (V i)]) ND C) as (d' & st' & X1 & X2 & X3 & X4 & X5 & X6 & _).
    { intros i n Hi. split; [repeat constructor|]. auto. }
    destruct WF as (NDn & AD & NA & _).
    assert (LO' : left_over act st' c).
    { intros r s v Hr E. destruct (X5 r c s) as [Y|(Y1 & Y2 & Y3 & _)]; [rewrite Y in E; eauto|]. split; auto. split; auto. now apply AD. }
    assert (VAL : forall r s v, In r (t_nodes t) -> lk st' r c s = Some v -> v = V s).
    { intros r s v Hr E. destruct (LO' r s v Hr E) as (Y1 & Y2 & Y3). destruct (AD r s Y3) as (_ & _ & Y4).
      destruct (X6 RE r c s (V s) Y2 Y4 Y1) as (v' & E' & o & [<-|[]] & _ & ->); [eexists; split; [left; reflexivity|cbn; auto]|]. congruence. }
    exists d', st'. split; auto. split; auto. split; auto. split; auto. split; [|split; auto].
    - intros M i Hi. assert (Hn : In i (t_nodes t)) by nodes.
      rewrite (assoc_map _ V (inbox_NoDup t act st' i c X2 Hn)); [|intros s v E; rewrite inbox_lk in E; eauto].
      rewrite wavg_mix. apply mix_perm. apply NoDup_Permutation; [now apply (inbox_NoDup t act)|apply NoDup_filter, NA|].
      intro s. unfold heard. rewrite filter_In, memb_In. split.
      + intro I. assert (exists v, lk st' i c s = Some v) as (v & E).
        { rewrite <- inbox_lk. destruct (dget Nat.eqb (inbox_of st' i c) s) eqn:E; eauto. apply (dget_None_iff _ _ _ Nat.eqb_spec) in E. contradiction. }
        destruct (LO' i s v Hn E). tauto.
      + intros (Y1 & Y2). destruct (AD i s Y1) as (_ & _ & Y3).
        destruct (X6 RE i c s (V s) Y2 Y3 Hi) as (v' & E' & _); [eexists; split; [left; reflexivity|cbn; auto]|].
        rewrite <- inbox_lk in E'. apply (dget_In _ _ _ Nat.eqb_spec) in E'. now apply (in_map fst) in E'.
    - intros r c' s N. refine (other_inbox t act st st' _ c' X5 _ r s). intros s' r' v _ (o & [<-|[]] & -> & _). congruence.
  Qed.

  Lemma do_phases_app l1 l2 w w1 : do_phases t e l1 w = (w1, false) -> do_phases t e (l1 ++ l2) w = do_phases t e l2 w1.
  Proof.
    revert w. induction l1 as [|ph l1 IH]; intros w; cbn [app do_phases]; [intros [= ->]; reflexivity|].
    destruct (do_phase t e ph w) as [w' [|]]; [discriminate|]. apply IH.
  Qed.

  Notation gt := "gradient_tracker"%string.
  Notation stc := "state"%string.
  Lemma rounds_ok a act d st X Y V V' : NoDup act -> cfg t act st -> left_over act st gt -> left_over act st stc ->
    (forall i, In i act -> Xis X i (px st i) /\ Ais "y" Y i (px st i) /\ Ais "v" V' i (px st i) /\ Ais "v_prev" V i (px st i)) ->
    let Y' := fun i => vsub (vadd (mix W (heard act i) Y i) (V' i)) (V i) in
    let X' := fun i => vsub (mix W (heard act i) X i) (vscal a (Y' i)) in
    exists d' st', do_phases t e (sarah_rounds W a) (d, st) = ((d', st'), false) /\
      cfg t act st' /\ left_over act st' gt /\ left_over act st' stc /\
      (forall i, In i act -> Xis X' i (px st' i) /\ Ais "y" Y' i (px st' i) /\ Ais "v" V' i (px st' i) /\ Ais "x_prev" X i (px st' i)) /\
      (forall i, ~ In i act -> px st' i = px st i).
  Proof.
    intros ND C L1 L2 Q1 Y' X'. unfold sarah_rounds. cbn [do_phases].
    edestruct (bcast_again act st d) with (c := gt) (V := Y) (Q := fun i p => Xis X i p /\ Ais "y" Y i p /\ Ais "v" V' i p /\ Ais "v_prev" V i p)
      as (d2 & s2 & -> & C2 & Q2 & N2 & I2 & LO2 & O2); auto.
    { unfold Ais in *. body Q1. run_vr. auto. }
    edestruct (upd_phase t e act s2 d2) with (Q := fun i p => Xis X i p /\ Ais "y" Y' i p /\ Ais "v" V' i p)
      as (d3 & s3 & -> & C3 & Q3 & N3 & M3 & _); auto.
    { unfold Ais in *. body Q2. run_vr. rewrite I2 by auto. auto. }
    assert (K3 : forall r c s, lk s3 r c s = lk s2 r c s). { intros. unfold lk. now rewrite M3. }
    edestruct (bcast_again act s3 d3) with (c := stc) (V := X) (Q := fun i p => Xis X i p /\ Ais "y" Y' i p /\ Ais "v" V' i p)
      as (d4 & s4 & -> & C4 & Q4 & N4 & I4 & LO4 & O4); auto.
    { intros r s v Hr E. rewrite K3, O2 in E by discriminate. eauto. }
    { unfold Ais in *. body Q3. run_vr. auto. }
    edestruct (upd_phase t e act s4 d4) with (Q := fun i p => Xis X' i p /\ Ais "y" Y' i p /\ Ais "v" V' i p /\ Ais "x_prev" X i p)
      as (d5 & s5 & -> & C5 & Q5 & N5 & M5 & _); auto.
    { unfold Ais in *. body Q4. run_vr. rewrite I4 by auto. auto. }
    assert (K5 : forall r c s, lk s5 r c s = lk s4 r c s). { intros. unfold lk. now rewrite M5. }
    exists d5, s5. split; auto. split; auto. split; [|split; [|split; auto]].
    - intros r s v Hr E. rewrite K5, O4, K3 in E by discriminate. eauto.
    - intros r s v Hr E. rewrite K5 in E. eauto.
    - intros i Hi. rewrite N5, N4, N3, N2; auto.
  Qed.

  (** [q] inner rounds; [Xs 0] is the point before [Xs 1] *)
  Lemma inner_ok a act q : forall d st XP X Y V, NoDup act -> cfg t act st -> left_over act st gt -> left_over act st stc ->
    (forall i, In i act -> Xis X i (px st i) /\ Ais "y" Y i (px st i) /\ Ais "v" V i (px st i) /\ Ais "x_prev" XP i (px st i)) ->
    exists d' st' Xs Ys Vs B, do_phases t e (sarah_inner W sg batch a q) (d, st) = ((d', st'), false) /\
      cfg t act st' /\ Xs 0%nat = XP /\ Xs 1%nat = X /\ Ys 0%nat = Y /\ Vs 0%nat = V /\
      (forall r i, (r < q)%nat -> In i act -> drawn batch i (B r i) /\ Vs (S r) i = sarah_est sg i (B r i) (Xs r i) (Vs r i) (Xs (S r) i) /\
         Ys (S r) i = vsub (vadd (mix W (heard act i) (Ys r) i) (Vs (S r) i)) (Vs r i) /\
         Xs (S (S r)) i = vsub (mix W (heard act i) (Xs (S r)) i) (vscal a (Ys (S r) i))) /\
      (forall i, In i act -> Xis (Xs (S q)) i (px st' i) /\ Ais "y" (Ys q) i (px st' i) /\ Ais "v" (Vs q) i (px st' i)) /\
      (forall i, ~ In i act -> px st' i = px st i).
  Proof.
    induction q as [|q IH]; intros d st XP X Y V ND C L1 L2 Q1.
    - exists d, st, (fun n => match n with O => XP | _ => X end), (fun _ => Y), (fun _ => V), (fun _ _ => []).
      split; [reflexivity|]. split; auto. split; auto. split; auto. split; auto. split; auto. split; [intros; lia|]. split; auto.
      intros i Hi. destruct (Q1 i Hi) as (A1 & A2 & A3 & _). auto.
    - cbn [sarah_inner app do_phases]. unfold sarah_estimate.
      edestruct (upd_phase t e act st d) with (Q := fun i p => exists B, drawn batch i B /\ Xis X i p /\ Ais "y" Y i p /\ Ais "v_prev" V i p /\
          dget String.eqb (v_aux p) "v"%string = Some (AArr (sarah_est sg i B (XP i) (V i) (X i))))
        as (d2 & s2 & -> & C2 & Q2' & N2 & M2 & _); auto.
      { unfold Ais in *. body Q1. run_vr. exists (batch n i). split; [exists n; reflexivity|]. rewrite sarah_est_eq. auto. }
      apply (choice_list _ []) in Q2'. destruct Q2' as (B & Q2). set (V1 := fun i => sarah_est sg i (B i) (XP i) (V i) (X i)).
      assert (K2 : forall r c s, lk s2 r c s = lk st r c s). { intros. unfold lk. now rewrite M2. }
      destruct (rounds_ok a act d2 s2 X Y V V1) as (d3 & s3 & E3 & C3 & L3 & L3' & Q3 & N3); auto.
      { intros r s v Hr E. rewrite K2 in E. eauto. }
      { intros r s v Hr E. rewrite K2 in E. eauto. }
      { intros i Hi. destruct (Q2 i Hi) as (_ & A1 & A2 & A3 & A4). unfold Ais in *. auto. }
      rewrite (do_phases_app _ _ _ _ E3).
      set (Y1 := fun i => vsub (vadd (mix W (heard act i) Y i) (V1 i)) (V i)) in *.
      set (X1 := fun i => vsub (mix W (heard act i) X i) (vscal a (Y1 i))) in *.
      destruct (IH d3 s3 X X1 Y1 V1) as (d4 & s4 & Xs & Ys & Vs & Bs & E4 & C4 & S1 & S2 & S3 & S4 & R & Q4 & N4); auto.
      exists d4, s4, (fun n => match n with O => XP | S n => Xs n end), (fun n => match n with O => Y | S n => Ys n end),
        (fun n => match n with O => V | S n => Vs n end), (fun n => match n with O => B | S n => Bs n end).
      split; [exact E4|]. split; auto. split; auto. split; auto. split; auto. split; auto. split; [|split].
      + intros r i Hr Hi. destruct r as [|r].
        * rewrite S1, S2, S3, S4. split; [apply (Q2 i Hi)|]. split; [reflexivity|]. split; reflexivity.
        * apply R; auto. lia.
      + exact Q4.
      + intros i Hi. rewrite N4, N3, N2; auto.
  Qed.

  Lemma sarah_step a q k d st X Y V :
    (forall i, In i (t_nodes t) -> state_is st i (X i) /\ aux_is st i "y" (Y i) /\ aux_is st i "v" (V i)) ->
    exists d' st' Xs Ys Vs B, let act := active_at t e k st in
      do_phases t e (sarah W m sg batch a q k) (d, step t k st) = ((d', st'), false) /\
      Xs 0%nat = X /\ Ys 0%nat = Y /\ Vs 0%nat = V /\
      (forall i, In i act -> Vs 1%nat i = full i (X i)) /\
      (forall r i, (r < q)%nat -> In i act -> drawn batch i (B r i) /\
         Vs (S (S r)) i = sarah_est sg i (B r i) (Xs r i) (Vs (S r) i) (Xs (S r) i)) /\
      (forall r i, (r <= q)%nat -> In i act ->
         Ys (S r) i = vsub (vadd (mix W (heard act i) (Ys r) i) (Vs (S r) i)) (Vs r i) /\
         Xs (S r) i = vsub (mix W (heard act i) (Xs r) i) (vscal a (Ys (S r) i))) /\
      (forall i, In i act -> state_is st' i (Xs (S q) i) /\ aux_is st' i "y" (Ys (S q) i) /\ aux_is st' i "v" (Vs (S q) i)) /\
      (forall i, ~ In i act -> untouched st st' i).
  Proof.
    intros HX. unfold sarah. begin act s1.
    assert (Q1 : forall i, In i act -> Xis X i (px s1 i) /\ Ais "y" Y i (px s1 i) /\ Ais "v" V i (px s1 i)).
    { intros i Hi. rewrite P. apply HX. nodes. }
    set (V1 := fun i => full i (X i)).
    edestruct (upd_phase t e act s1 d) with (Q := fun i p => Xis X i p /\ Ais "y" Y i p /\ Ais "v" V1 i p /\ Ais "v_prev" V i p)
      as (d2 & s2 & -> & C2 & Q2 & N2 & M2 & _); auto.
    { unfold Ais in *. body Q1. run_vr. rewrite grad_on_full. auto. }
    assert (LO : forall c, left_over act s2 c). { intros c r s v Hr E. unfold lk in E. rewrite M2 in E. fold (lk s1 r c s) in E. rewrite L in E by auto. discriminate. }
    destruct (rounds_ok a act d2 s2 X Y V V1) as (d3 & s3 & E3 & C3 & L3 & L3' & Q3 & N3); auto.
    rewrite (do_phases_app _ _ _ _ E3).
    set (Y1 := fun i => vsub (vadd (mix W (heard act i) Y i) (V1 i)) (V i)) in *.
    set (X1 := fun i => vsub (mix W (heard act i) X i) (vscal a (Y1 i))) in *.
    destruct (inner_ok a act q d3 s3 X X1 Y1 V1) as (d4 & s4 & Xs & Ys & Vs & Bs & E4 & C4 & S1 & S2 & S3 & S4 & R & Q4 & N4); auto.
    exists d4, s4, Xs, (fun n => match n with O => Y | S n => Ys n end), (fun n => match n with O => V | S n => Vs n end), Bs.
    split; [exact E4|]. split; auto. split; auto. split; auto. split; [intros; now rewrite S4|]. split; [|split; [|split; auto]].
    - intros r i Hr Hi. destruct (R r i Hr Hi) as (A1 & A2 & _). auto.
    - intros r i Hr Hi. destruct r as [|r].
      + rewrite S1, S2, S3, S4. split; reflexivity.
      + destruct (R r i ltac:(lia) Hi) as (_ & _ & A3 & A4). auto.
    - intros i Hi. apply untouched_px. rewrite N4, N3, N2; auto.
  Qed.
  End Reliable.
End Steps.
