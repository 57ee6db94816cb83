(** One step of each algorithm, on an arbitrary faithful network. *)
From Coq Require Import Reals String List Bool Arith Lia Lra FunctionalExtensionality Permutation.
From Verif.Model Require Import PyDict History Messages Network Runner Vec P2P.
From Verif.Spec Require Import NetworkSpec P2PSpec.
From Verif.Proofs Require Import PyDictProofs NetworkProofs NetworkMore EmpiricalProofs P2PLock.
Import ListNotations.
Open Scope R_scope.

Lemma wavg_acc (M : agent_id -> agent_id -> R) i msgs : forall acc, 
  fold_left (fun a (m : agent_id * vec) => vadd a (vscal (M i (fst m)) (snd m))) msgs acc =
  fun c => acc c + rsum (map (fun m : agent_id * vec => M i (fst m) * snd m c) msgs).
Proof.
  induction msgs as [|m msgs IH]; intro acc; cbn [fold_left map].
  - apply functional_extensionality. intro c. rewrite rsum_nil. lra.
  - rewrite IH. apply functional_extensionality. intro c. rewrite rsum_cons. 
  unfold vadd, vscal. ring.
Qed.
Lemma wavg_mix M i (v : agent_id -> vec) D : wavg M i (v i) (map (fun j => (j, v j)) D) = mix M D v i.
Proof.
  unfold wavg. rewrite wavg_acc. apply functional_extensionality. intro c. unfold mix, vscal. rewrite map_map. reflexivity.
Qed.

Lemma mix_perm M D D' v i : Permutation D D' -> mix M D v i = mix M D' v i.
Proof. intro H. unfold mix. apply functional_extensionality. intro c. f_equal. apply rsum_perm. now apply Permutation_map. Qed.

Lemma dg_same {K} (d : list (string * K)) k v : dget String.eqb (dset String.eqb d k v) k = Some v.
Proof. apply (dget_dset_eq _ _ _ String.eqb_spec). Qed.
Lemma dg_other {K} (d : list (string * K)) k k' v : k' <> k -> dget String.eqb (dset String.eqb d k v) k' = dget String.eqb d k'.
Proof. intro N. apply (dget_dset_neq _ _ _ String.eqb_spec). congruence. Qed.

(** evaluation of bodies *)
Ltac lstep :=
  first [ progress cbn [fst snd v_x v_aux v_nx lbind lret getx setx aux put auxm putm gradient proximal]
        | rewrite dg_same
        | rewrite dg_other by discriminate
        | match goal with
          | H : dget String.eqb ?d ?k = Some _ |- context [dget String.eqb ?d ?k] => rewrite H
          | H : v_x ?p = Some _ |- context [v_x ?p] => rewrite H
          | H : a_x ?p = Some _ |- context [a_x ?p] => rewrite H
          end ].
Ltac lrun := unfold lbind, lret, getx, setx, aux, put, auxm, putm, gradient, proximal; repeat lstep.

Ltac dex := repeat match goal with H : _ /\ _ |- _ => destruct H | H : exists _, _ |- _ => destruct H end.
Ltac body Q :=
  let i := fresh "i" in let n := fresh "n" in let Hi := fresh "Hi" in let E := fresh "E" in let p := fresh "p" in let Hp := fresh "Hp" in
  intros i n Hi; pose proof (Q i Hi) as E;
  match type of E with context [priv_of ?a] => remember (priv_of a) as p eqn:Hp; clear Hp end;
  dex.
Ltac run_body := do 2 eexists; lrun; split; [reflexivity|]; lrun.

Lemma choice_list {A} (P : agent_id -> A -> Prop) (a0 : A) l : (forall i, In i l -> exists a, P i a) -> exists f, forall i, In i l -> P i (f i).
Proof.
  induction l as [|i l IH]; intro H; [exists (fun _ => a0); intros i []|].
  destruct IH as (f & F); [intros; apply H; now right|]. destruct (H i (or_introl eq_refl)) as (a & Ha).
  exists (fun j => if Nat.eq_dec j i then a else f j). intros j Hj. destruct (Nat.eq_dec j i); [now subst|].
  apply F. destruct Hj; [congruence|auto].
Qed.
Lemma ltimes_steps grad i next n : forall p d x, exists z d',
  ltimes n (fun phi => g <- gradient grad i phi ;; lret (next phi g)) x (p, d) = Some (z, (p, d')) /\ exists s, local_steps grad i next n x z s.
Proof.
  induction n as [|n IH]; intros p d x; [exists x, d; split; [reflexivity|]; exists vzero; constructor|].
  destruct (IH p (S d) (next x (grad d i x))) as (z & d' & E & s & L). exists z, d'. split; [exact E|].
  exists (vadd (grad d i x) s). econstructor; [exists d; reflexivity|exact L].
Qed.

Lemma both_map (V U : agent_id -> vec) D1 D2 :
  both (map (fun j => (j, V j)) D1) (map (fun j => (j, U j)) D2) = map (fun j => (j, V j)) (filter (fun j => memb j D2) D1).
Proof.
  unfold both. induction D1 as [|j D1 IH]; cbn [map filter fst]; auto.
  assert (E : dmem Nat.eqb (map (fun j => (j, U j)) D2) j = memb j D2).
  { apply eq_true_iff_eq. rewrite (dmem_In _ _ _ Nat.eqb_spec), memb_In. unfold dkeys. rewrite map_map. cbn. rewrite map_id. tauto. }
  rewrite E. destruct (memb j D2); cbn [map]; now rewrite IH.
Qed.
(** per-neighbour rows *)
Lemma rows_dget (Z : agent_id -> vec) l j : In j l -> dget Nat.eqb (map (fun j => (j, Z j)) l) j = Some (Z j).
Proof.
  induction l as [|i l IH]; intros []; cbn [map dget].
  - subst. now rewrite Nat.eqb_refl.
  - destruct (Nat.eqb_spec j i); [now subst|auto].
Qed.
Lemma rows_dset (Z : agent_id -> vec) l j v : NoDup l -> In j l ->
  dset Nat.eqb (map (fun j => (j, Z j)) l) j v = map (fun i => (i, if Nat.eqb i j then v else Z i)) l.
Proof.
  induction l as [|i l IH]; intros ND []; inversion ND; subst; cbn [map dset].
  - rewrite Nat.eqb_refl. f_equal. apply map_ext_in. intros a Ha. destruct (Nat.eqb_spec a j); [subst; contradiction|auto].
  - destruct (Nat.eqb_spec j i); [subst; contradiction|]. destruct (Nat.eqb_spec i j); [congruence|]. f_equal. auto.
Qed.
Lemma lfor_rows (step : string -> R -> agent_id * vec -> L unit) (f : vec -> vec -> vec) k al l (V : agent_id -> vec) :
  (forall p n z j v zj, dget String.eqb (v_aux p) k = Some (AMap z) -> dget Nat.eqb z j = Some zj ->
     step k al (j, v) (p, n) = Some (tt, (mkPriv (v_x p) (dset String.eqb (v_aux p) k (AMap (dset Nat.eqb z j (f zj v)))) (v_nx p), n))) ->
  NoDup l -> forall D Z p n, NoDup D -> incl D l ->
  dget String.eqb (v_aux p) k = Some (AMap (map (fun j => (j, Z j)) l)) ->
  exists p', lfor (map (fun j => (j, V j)) D) (step k al) (p, n) = Some (tt, (p', n)) /\
    v_x p' = v_x p /\ dget String.eqb (v_aux p') k = Some (AMap (map (fun j => (j, if memb j D then f (Z j) (V j) else Z j)) l)) /\
    (forall k', k' <> k -> dget String.eqb (v_aux p') k' = dget String.eqb (v_aux p) k').
Proof.
  intros ST ND. induction D as [|i D IH]; intros Z p n NDD I E; cbn [map lfor].
  - exists p. split; [reflexivity|]. auto.
  - inversion NDD; subst. assert (Hi : In i l) by (apply I; now left).
    set (Z1 := fun j => if Nat.eqb j i then f (Z i) (V i) else Z j).
    set (p1 := mkPriv (v_x p) (dset String.eqb (v_aux p) k (AMap (map (fun j => (j, Z1 j)) l))) (v_nx p)).
    destruct (IH Z1 p1 n) as (p' & X1 & X2 & X3 & X4); auto.
    + intros j Hj. apply I. now right.
    + unfold p1. cbn. apply dg_same.
    + exists p'. split; [|split; [|split]]; auto.
      * unfold lbind at 1. erewrite ST; [|exact E|now apply rows_dget]. rewrite rows_dset by auto. exact X1.
      * rewrite X3. f_equal. f_equal. apply map_ext. intro j. f_equal. cbn [memb existsb]. fold (memb j D). unfold Z1.
        destruct (Nat.eqb_spec j i); cbn [orb]; [|reflexivity]. subst. destruct (memb i D) eqn:M; [apply memb_In in M; contradiction|reflexivity].
      * intros k' Hk. rewrite X4 by auto. unfold p1. cbn. now apply dg_other.
Qed.
Lemma relax_ok k al p n z j v zj : dget String.eqb (v_aux p) k = Some (AMap z) -> dget Nat.eqb z j = Some zj ->
  relax k al (j, v) (p, n) = Some (tt, (mkPriv (v_x p) (dset String.eqb (v_aux p) k (AMap (dset Nat.eqb z j (vsub (vscal (1 - al) zj) (vscal al v))))) (v_nx p), n)).
Proof. intros E1 E2. unfold relax, lbind, auxm, row, putm. cbn [fst snd]. now rewrite E1, E2. Qed.
Lemma relax_add_ok k al p n z j v zj : dget String.eqb (v_aux p) k = Some (AMap z) -> dget Nat.eqb z j = Some zj ->
  relax_add k al (j, v) (p, n) = Some (tt, (mkPriv (v_x p) (dset String.eqb (v_aux p) k (AMap (dset Nat.eqb z j (vadd (vscal (1 - al) zj) (vscal al v))))) (v_nx p), n)).
Proof. intros E1 E2. unfold relax_add, lbind, auxm, row, putm. cbn [fst snd]. now rewrite E1, E2. Qed.

Section Steps.
  Variables (t : topo) (e : env vec).
  Hypothesis PT : p2p_topo t.
  Hypothesis FA : faithful e.
  Variable W : agent_id -> agent_id -> R.
  Variable grad : nat -> agent_id -> vec -> vec.
  Variable prox : nat -> agent_id -> vec -> R -> vec.
  Notation px st i := (priv_of (n_agents st i)).

  Lemma WF : wf_topo t. Proof. apply PT. Qed.
  Lemma SV : t_server t = None. Proof. apply PT. Qed.

  Lemma act_nodes act st i : cfg t act st -> In i act -> In i (t_nodes t).
  Proof. intros C H. now apply (cfg_incl t SV act st C). Qed.
  Lemma untouched_px st st' i : px st' i = px st i -> untouched st st' i.
  Proof. unfold priv_of, untouched. intros [= -> -> _]. auto. Qed.

  (** the beginning of a step *)
  Lemma start phs k d st : phs <> [] ->
    exists st1, do_phases t e phs (d, step t k st) = do_phases t e phs (d, st1) /\
      cfg t (active_at t e k st) st1 /\ NoDup (active_at t e k st) /\
      (forall r c s, In r (t_nodes t) -> lk st1 r c s = None) /\ (forall i, px st1 i = px st i).
  Proof.
    intro H. destruct (step_cfg t e WF SV k st) as (s1 & E & C1 & ND & L1 & P1 & _). exists s1.
    rewrite do_phases_start by auto. cbn [fst snd]. rewrite E. auto.
  Qed.
  Ltac begin act s1 := match goal with |- context [do_phases t e ?phs (?d, step t ?k ?st)] =>
    let E := fresh in let C := fresh "C" in let ND := fresh "ND" in let L := fresh "L" in let P := fresh "P" in
    destruct (start phs k d st) as (s1 & E & C & ND & L & P); [discriminate|];
    rewrite E; clear E; set (act := active_at t e k st) in *; cbn [do_phases app] end.
  Ltac nodes := match goal with C : cfg t ?act _, H : In ?i ?act |- In ?i (t_nodes t) => exact (act_nodes _ _ _ C H) | _ => auto end.

  Definition Xis (X : agent_id -> vec) (i : agent_id) (p : priv) : Prop := v_x p = Some (X i).

  Lemma dgd_step a k d st X : (forall i, In i (t_nodes t) -> state_is st i (X i)) ->
    exists d' st' D, do_phases t e (dgd W grad a k) (d, step t k st) = ((d', st'), false) /\
      delivery t e (active_at t e k st) D /\
      (forall i, In i (active_at t e k st) -> exists g, gradient_of grad i (X i) g /\
         state_is st' i (vsub (mix W (D i) X i) (vscal a g))) /\
      (forall i, ~ In i (active_at t e k st) -> untouched st st' i).
  Proof.
    intros HX. unfold dgd. begin act s1.
    assert (Q1 : forall i, In i act -> Xis X i (px s1 i)). { intros i Hi. rewrite P. apply HX. nodes. }
    edestruct (bcast_phase t e WF SV FA act s1 d) with (c := dflt) (V := X) (Q := Xis X)
      as (d2 & s2 & D & -> & C2 & Q2 & N2 & DE & I2 & O2 & _); auto.
    { unfold Xis in *. body Q1. run_body. auto. }
    edestruct (upd_phase t e act s2 d2) with (Q := fun i p => exists g, gradient_of grad i (X i) g /\ v_x p = Some (vsub (mix W (D i) X i) (vscal a g)))
      as (d3 & s3 & -> & C3 & Q3 & N3 & _); auto.
    { unfold Xis in *. body Q2. run_body. rewrite I2 by nodes. rewrite wavg_mix. eexists. split; [exists n; reflexivity|reflexivity]. }
    exists d3, s3, D. split; auto. split; auto. split; [exact Q3|].
    intros i Hi. apply untouched_px. rewrite N3, N2; auto.
  Qed.

  Definition Ais (k : string) (V : agent_id -> vec) (i : agent_id) (p : priv) : Prop := dget String.eqb (v_aux p) k = Some (AArr (V i)).
  Ltac fin := repeat match goal with |- _ /\ _ => split | |- exists _, _ => eexists end; unfold Xis, Ais, state_is, aux_is in *; lrun; eauto.

  Lemma atc_step a k d st X : (forall i, In i (t_nodes t) -> state_is st i (X i)) ->
    exists d' st' D Y, do_phases t e (atc W grad a k) (d, step t k st) = ((d', st'), false) /\
      delivery t e (active_at t e k st) D /\
      (forall i, In i (active_at t e k st) -> exists g, gradient_of grad i (X i) g /\ Y i = vsub (X i) (vscal a g) /\
         state_is st' i (fun c => W i i * X i c + rsum (map (fun j => W i j * Y j c) (D i)))) /\
      (forall i, ~ In i (active_at t e k st) -> untouched st st' i).
  Proof.
    intros HX. unfold atc. begin act s1.
    assert (Q1 : forall i, In i act -> Xis X i (px s1 i)). { intros i Hi. rewrite P. apply HX. nodes. }
    edestruct (upd_phase t e act s1 d) with (Q := fun i p => exists y, Xis X i p /\ (exists g, gradient_of grad i (X i) g /\ y = vsub (X i) (vscal a g)) /\ dget String.eqb (v_aux p) "y"%string = Some (AArr y))
      as (d2 & s2 & -> & C2 & Q2' & N2 & M2 & _); auto.
    { unfold Xis in *. body Q1. run_body. eexists. split; [auto|]. split; [|reflexivity]. eexists. split; [exists n; reflexivity|reflexivity]. }
    apply (choice_list _ vzero) in Q2'. destruct Q2' as (Y & Q2).
    edestruct (bcast_phase t e WF SV FA act s2 d2) with (c := dflt) (V := Y) (Q := Xis X)
      as (d3 & s3 & D & -> & C3 & Q3 & N3 & DE & I3 & O3 & _); auto.
    { intros r s Hr. unfold lk. rewrite M2. now apply L. }
    { unfold Xis in *. body Q2. run_body. auto. }
    edestruct (upd_phase t e act s3 d3) with (Q := fun i p => v_x p = Some (fun c => W i i * X i c + rsum (map (fun j => W i j * Y j c) (D i))))
      as (d4 & s4 & -> & C4 & Q4 & N4 & _); auto.
    { unfold Xis in *. body Q3. run_body. rewrite I3 by nodes. f_equal. unfold wavg. rewrite wavg_acc.
      apply functional_extensionality. intro c. rewrite map_map. reflexivity. }
    exists d4, s4, D, Y. split; auto. split; auto. split.
    - intros i Hi. destruct (Q2 i Hi) as (_ & (g & G1 & G2) & _). exists g. split; auto. split; auto. apply Q4; auto.
    - intros i Hi. apply untouched_px. rewrite N4, N3, N2; auto.
  Qed.

  Lemma simple_gt_step a k d st X Y : (forall i, In i (t_nodes t) -> state_is st i (X i) /\ aux_is st i "y" (Y i)) ->
    exists d' st' D, do_phases t e (simple_gt W grad a k) (d, step t k st) = ((d', st'), false) /\
      delivery t e (active_at t e k st) D /\
      (forall i, In i (active_at t e k st) -> exists g, gradient_of grad i (X i) g /\
         state_is st' i (vadd (vsub (vsub (X i) (vscal a g)) (Y i)) (mix W (D i) X i)) /\
         aux_is st' i "y" (vsub (X i) (vscal a g))) /\
      (forall i, ~ In i (active_at t e k st) -> untouched st st' i).
  Proof.
    intros HX. unfold simple_gt. begin act s1.
    assert (Q1 : forall i, In i act -> Xis X i (px s1 i) /\ Ais "y" Y i (px s1 i)). { intros i Hi. rewrite P. apply HX. nodes. }
    edestruct (bcast_phase t e WF SV FA act s1 d) with (c := dflt) (V := X) (Q := fun i p => Xis X i p /\ Ais "y" Y i p)
      as (d2 & s2 & D & -> & C2 & Q2 & N2 & DE & I2 & O2 & _); auto.
    { unfold Xis, Ais in *. body Q1. run_body. auto. }
    edestruct (upd_phase t e act s2 d2) with (Q := fun i p => exists g, gradient_of grad i (X i) g /\
         v_x p = Some (vadd (vsub (vsub (X i) (vscal a g)) (Y i)) (mix W (D i) X i)) /\
         dget String.eqb (v_aux p) "y"%string = Some (AArr (vsub (X i) (vscal a g))))
      as (d3 & s3 & -> & C3 & Q3 & N3 & _); auto.
    { unfold Xis, Ais in *. body Q2. run_body. rewrite I2 by nodes. rewrite wavg_mix. eexists. split; [exists n; reflexivity|auto]. }
    exists d3, s3, D. split; auto. split; auto. split; [exact Q3|].
    intros i Hi. apply untouched_px. rewrite N3, N2; auto.
  Qed.

  (** the first round of ATC-tracking and AugDGM *)
  Definition track_pre X Y G i p := Xis X i p /\ Ais "y" Y i p /\ Ais "g" G i p.
  Lemma track_round1_ok a act d st X Y G rest : cfg t act st -> NoDup act ->
    (forall r c s, In r (t_nodes t) -> lk st r c s = None) ->
    (forall i, In i act -> track_pre X Y G i (px st i)) ->
    let S := fun j => vsub (X j) (vscal a (Y j)) in
    exists d' st' D Gn, do_phases t e (track_round1 W grad a ++ rest) (d, st) = do_phases t e rest (d', st') /\
      cfg t act st' /\ (forall r s, In r (t_nodes t) -> lk st' r "gradient_tracker"%string s = None) /\ delivery t e act D /\
      (forall i, In i act -> gradient_of grad i (mix W (D i) S i) (Gn i) /\ v_x (px st' i) = Some (mix W (D i) S i) /\
         Ais "y" Y i (px st' i) /\ Ais "g" G i (px st' i) /\ Ais "g_new" Gn i (px st' i)) /\
      (forall i, ~ In i act -> px st' i = px st i).
  Proof.
    intros C ND L Q1 S. unfold track_round1. cbn [do_phases app]. unfold track_pre in Q1.
    edestruct (upd_phase t e act st d) with (Q := fun i p => Ais "y" Y i p /\ Ais "g" G i p /\ Ais "s" S i p)
      as (d2 & s2 & -> & C2 & Q2 & N2 & M2 & _); auto.
    { unfold Xis, Ais in *. body Q1. run_body. auto. }
    edestruct (bcast_phase t e WF SV FA act s2 d2) with (c := "state"%string) (V := S) (Q := fun i p => Ais "y" Y i p /\ Ais "g" G i p /\ Ais "s" S i p)
      as (d3 & s3 & D & -> & C3 & Q3 & N3 & DE & I3 & O3 & _); auto.
    { intros r s Hr. unfold lk. rewrite M2. now apply L. }
    { unfold Ais in *. body Q2. run_body. auto. }
    edestruct (upd_phase t e act s3 d3) with (Q := fun i p => exists g, gradient_of grad i (mix W (D i) S i) g /\ v_x p = Some (mix W (D i) S i) /\
         Ais "y" Y i p /\ Ais "g" G i p /\ dget String.eqb (v_aux p) "g_new"%string = Some (AArr g))
      as (d4 & s4 & -> & C4 & Q4' & N4 & M4 & _); auto.
    { unfold Ais in *. body Q3. run_body. rewrite I3 by nodes. rewrite wavg_mix. eexists. split; [exists n; reflexivity|]. auto. }
    apply (choice_list _ vzero) in Q4'. destruct Q4' as (Gn & Q4).
    exists d4, s4, D, Gn. split; auto. split; auto. split; [|split; [auto|split; [exact Q4|]]].
    - intros r s Hr. unfold lk. rewrite M4. fold (lk s3 r "gradient_tracker"%string s). rewrite O3 by discriminate. unfold lk. rewrite M2. now apply L.
    - intros i Hi. rewrite N4, N3, N2; auto.
  Qed.

  Lemma atct_step a k d st X Y G :
    (forall i, In i (t_nodes t) -> state_is st i (X i) /\ aux_is st i "y" (Y i) /\ aux_is st i "g" (G i)) ->
    let S := fun j => vsub (X j) (vscal a (Y j)) in
    exists d' st' D1 D2 Gn, do_phases t e (atct W grad a k) (d, step t k st) = ((d', st'), false) /\
      delivery t e (active_at t e k st) D1 /\ delivery t e (active_at t e k st) D2 /\
      (forall i, In i (active_at t e k st) -> let x' := mix W (D1 i) S i in
         gradient_of grad i x' (Gn i) /\ state_is st' i x' /\
         aux_is st' i "y" (vsub (vadd (mix W (D2 i) Y i) (Gn i)) (G i)) /\ aux_is st' i "g" (Gn i)) /\
      (forall i, ~ In i (active_at t e k st) -> untouched st st' i).
  Proof.
    intros HX S. unfold atct. begin act s1.
    destruct (track_round1_ok a act d s1 X Y G [ PSend (fun i => y <- aux "y" ;; lret [OBcast "gradient_tracker" y]);
      PUpd (fun i inb => y <- aux "y" ;; gn <- aux "g_new" ;; g <- aux "g" ;;
        put "y" (vsub (vadd (wavg W i y (inb "gradient_tracker"%string)) gn) g) ;;; put "g" gn) ])
      as (d2 & s2 & D1 & Gn & E & C2 & L2 & DE1 & Q2 & N2); auto.
    { intros i Hi. rewrite P. apply HX. nodes. }
    rewrite E. clear E. cbn [do_phases]. fold S in Q2.
    edestruct (bcast_phase t e WF SV FA act s2 d2) with (c := "gradient_tracker"%string) (V := Y) 
      (Q := fun i p => v_x p = Some (mix W (D1 i) S i) /\ Ais "y" Y i p /\ Ais "g" G i p /\ Ais "g_new" Gn i p)
      as (d3 & s3 & D2 & -> & C3 & Q3 & N3 & DE2 & I3 & O3 & _); auto.
    { unfold Ais in *. body Q2. run_body. auto. }
    edestruct (upd_phase t e act s3 d3) with (Q := fun i p => v_x p = Some (mix W (D1 i) S i) /\
         dget String.eqb (v_aux p) "y"%string = Some (AArr (vsub (vadd (mix W (D2 i) Y i) (Gn i)) (G i))) /\ Ais "g" Gn i p)
      as (d4 & s4 & -> & C4 & Q4 & N4 & _); auto.
    { unfold Ais in *. body Q3. run_body. rewrite I3 by nodes. rewrite wavg_mix. auto. }
    exists d4, s4, D1, D2, Gn. split; auto. split; auto. split; auto. split.
    - intros i Hi. destruct (Q2 i Hi) as (X1 & _). destruct (Q4 i Hi) as (X2 & X3 & X4). repeat split; auto.
    - intros i Hi. apply untouched_px. rewrite N4, N3, N2; auto.
  Qed.

  Lemma aug_dgm_step a k d st X Y G :
    (forall i, In i (t_nodes t) -> state_is st i (X i) /\ aux_is st i "y" (Y i) /\ aux_is st i "g" (G i)) ->
    let S := fun j => vsub (X j) (vscal a (Y j)) in
    exists d' st' D1 D2 Gn, do_phases t e (aug_dgm W grad a k) (d, step t k st) = ((d', st'), false) /\
      delivery t e (active_at t e k st) D1 /\ delivery t e (active_at t e k st) D2 /\
      (forall i, In i (active_at t e k st) -> let x' := mix W (D1 i) S i in
         gradient_of grad i x' (Gn i) /\ state_is st' i x' /\
         aux_is st' i "y" (mix W (D2 i) (fun j => vsub (vadd (Y j) (Gn j)) (G j)) i) /\ aux_is st' i "g" (Gn i)) /\
      (forall i, ~ In i (active_at t e k st) -> untouched st st' i).
  Proof.
    intros HX S. unfold aug_dgm. begin act s1.
    destruct (track_round1_ok a act d s1 X Y G [ PSend (fun i => y <- aux "y" ;; gn <- aux "g_new" ;; g <- aux "g" ;;
        put "msg" (vsub (vadd y gn) g) ;;; lret [OBcast "gradient_tracker" (vsub (vadd y gn) g)]);
      PUpd (fun i inb => m <- aux "msg" ;; put "y" (wavg W i m (inb "gradient_tracker"%string)) ;;;
        gn <- aux "g_new" ;; put "g" gn) ])
      as (d2 & s2 & D1 & Gn & E & C2 & L2 & DE1 & Q2 & N2); auto.
    { intros i Hi. rewrite P. apply HX. nodes. }
    rewrite E. clear E. cbn [do_phases]. fold S in Q2.
    set (M := fun j => vsub (vadd (Y j) (Gn j)) (G j)).
    edestruct (bcast_phase t e WF SV FA act s2 d2) with (c := "gradient_tracker"%string) (V := M) 
      (Q := fun i p => v_x p = Some (mix W (D1 i) S i) /\ Ais "msg" M i p /\ Ais "g_new" Gn i p)
      as (d3 & s3 & D2 & -> & C3 & Q3 & N3 & DE2 & I3 & O3 & _); auto.
    { unfold Ais in *. body Q2. run_body. auto. }
    edestruct (upd_phase t e act s3 d3) with (Q := fun i p => v_x p = Some (mix W (D1 i) S i) /\
         dget String.eqb (v_aux p) "y"%string = Some (AArr (mix W (D2 i) M i)) /\ Ais "g" Gn i p)
      as (d4 & s4 & -> & C4 & Q4 & N4 & _); auto.
    { unfold Ais in *. body Q3. run_body. rewrite I3 by nodes. rewrite wavg_mix. auto. }
    exists d4, s4, D1, D2, Gn. split; auto. split; auto. split; auto. split.
    - intros i Hi. destruct (Q2 i Hi) as (X1 & _). destruct (Q4 i Hi) as (X2 & X3 & X4). repeat split; auto.
    - intros i Hi. apply untouched_px. rewrite N4, N3, N2; auto.
  Qed.

  Lemma extra_step0 a d st X : (forall i, In i (t_nodes t) -> state_is st i (X i)) ->
    exists d' st' D, do_phases t e (extra W grad a 0) (d, step t 0 st) = ((d', st'), false) /\
      delivery t e (active_at t e 0 st) D /\
      (forall i, In i (active_at t e 0 st) -> exists g, gradient_of grad i (X i) g /\
         state_is st' i (vsub (mix W (D i) X i) (vscal a g)) /\
         aux_is st' i "x_old" (X i) /\ aux_is st' i "x_cons" (mix W (D i) X i)) /\
      (forall i, ~ In i (active_at t e 0 st) -> untouched st st' i).
  Proof.
    intros HX. unfold extra. begin act s1.
    assert (Q1 : forall i, In i act -> Xis X i (px s1 i)). { intros i Hi. rewrite P. apply HX. nodes. }
    edestruct (bcast_phase t e WF SV FA act s1 d) with (c := dflt) (V := X) (Q := Xis X)
      as (d2 & s2 & D & -> & C2 & Q2 & N2 & DE & I2 & O2 & _); auto.
    { unfold Xis, Ais in *. body Q1. run_body. auto. }
    edestruct (upd_phase t e act s2 d2) with (Q := fun i p => exists g, gradient_of grad i (X i) g /\
         v_x p = Some (vsub (mix W (D i) X i) (vscal a g)) /\ Ais "x_old" X i p /\ dget String.eqb (v_aux p) "x_cons"%string = Some (AArr (mix W (D i) X i)))
      as (d3 & s3 & -> & C3 & Q3 & N3 & _); auto.
    { unfold Xis, Ais in *. body Q2. run_body. rewrite I2 by nodes. rewrite wavg_mix. eexists. split; [exists n; reflexivity|auto]. }
    exists d3, s3, D. split; auto. split; auto. split; [exact Q3|].
    intros i Hi. apply untouched_px. rewrite N3, N2; auto.
  Qed.
  Lemma extra_stepS a k d st X XO XC :
    (forall i, In i (t_nodes t) -> state_is st i (X i) /\ aux_is st i "x_old" (XO i) /\ aux_is st i "x_cons" (XC i)) ->
    exists d' st' D, do_phases t e (extra W grad a (S k)) (d, step t (S k) st) = ((d', st'), false) /\
      delivery t e (active_at t e (S k) st) D /\
      (forall i, In i (active_at t e (S k) st) -> exists g go, gradient_of grad i (X i) g /\ gradient_of grad i (XO i) go /\
         state_is st' i (vsub (vsub (vsub (vadd (X i) (mix W (D i) X i)) (vscal (1/2) (XO i))) (vscal (1/2) (XC i))) (vscal a (vsub g go))) /\
         aux_is st' i "x_old" (X i) /\ aux_is st' i "x_cons" (mix W (D i) X i)) /\
      (forall i, ~ In i (active_at t e (S k) st) -> untouched st st' i).
  Proof.
    intros HX. unfold extra. begin act s1.
    assert (Q1 : forall i, In i act -> Xis X i (px s1 i) /\ Ais "x_old" XO i (px s1 i) /\ Ais "x_cons" XC i (px s1 i)). { intros i Hi. rewrite P. apply HX. nodes. }
    edestruct (bcast_phase t e WF SV FA act s1 d) with (c := dflt) (V := X) (Q := fun i p => Xis X i p /\ Ais "x_old" XO i p /\ Ais "x_cons" XC i p)
      as (d2 & s2 & D & -> & C2 & Q2 & N2 & DE & I2 & O2 & _); auto.
    { unfold Xis, Ais in *. body Q1. run_body. auto. }
    edestruct (upd_phase t e act s2 d2) with (Q := fun i p => exists g go, gradient_of grad i (X i) g /\ gradient_of grad i (XO i) go /\
         v_x p = Some (vsub (vsub (vsub (vadd (X i) (mix W (D i) X i)) (vscal (1/2) (XO i))) (vscal (1/2) (XC i))) (vscal a (vsub g go))) /\
         Ais "x_old" X i p /\ dget String.eqb (v_aux p) "x_cons"%string = Some (AArr (mix W (D i) X i)))
      as (d3 & s3 & -> & C3 & Q3 & N3 & _); auto.
    { unfold Xis, Ais in *. body Q2. run_body. rewrite I2 by nodes. rewrite wavg_mix.
      do 2 eexists. split; [exists n; reflexivity|]. split; [exists (S n); reflexivity|]. auto. }
    exists d3, s3, D. split; auto. split; auto. split; [exact Q3|].
    intros i Hi. apply untouched_px. rewrite N3, N2; auto.
  Qed.

  Lemma nids_step0 a d st X XO : (forall i, In i (t_nodes t) -> state_is st i (X i) /\ aux_is st i "x_old" (XO i)) ->
    exists d' st', do_phases t e (nids W grad a 0) (d, step t 0 st) = ((d', st'), false) /\
      (forall i, In i (active_at t e 0 st) -> exists g, gradient_of grad i (X i) g /\
         state_is st' i (vsub (XO i) (vscal a g)) /\ aux_is st' i "g" g /\ aux_is st' i "x_old" (XO i)) /\
      (forall i, ~ In i (active_at t e 0 st) -> untouched st st' i).
  Proof.
    intros HX. unfold nids. begin act s1.
    assert (Q1 : forall i, In i act -> Xis X i (px s1 i) /\ Ais "x_old" XO i (px s1 i)). { intros i Hi. rewrite P. apply HX. nodes. }
    edestruct (upd_phase t e act s1 d) with (Q := fun i p => exists g, gradient_of grad i (X i) g /\
        v_x p = Some (vsub (XO i) (vscal a g)) /\ dget String.eqb (v_aux p) "g"%string = Some (AArr g) /\ Ais "x_old" XO i p)
      as (d2 & s2 & -> & C2 & Q2 & N2 & M2 & _); auto.
    { unfold Xis, Ais in *. body Q1. run_body. eexists. split; [exists n; reflexivity|]. auto. }
    exists d2, s2. split; auto. split; [exact Q2|]. intros i Hi. apply untouched_px. rewrite N2; auto.
  Qed.
  Lemma nids_stepS a k d st X XO G : (forall i, In i (t_nodes t) -> state_is st i (X i) /\ aux_is st i "x_old" (XO i) /\ aux_is st i "g" (G i)) ->
    exists d' st' D Gn, do_phases t e (nids W grad a (S k)) (d, step t (S k) st) = ((d', st'), false) /\
      delivery t e (active_at t e (S k) st) D /\
      (forall i, In i (active_at t e (S k) st) -> gradient_of grad i (X i) (Gn i) /\
         state_is st' i (mix (halfW W) (D i) (fun j => vadd (vsub (vsub (vscal 2 (X j)) (XO j)) (vscal a (Gn j))) (vscal a (G j))) i) /\
         aux_is st' i "g" (Gn i) /\ aux_is st' i "x_old" (X i)) /\
      (forall i, ~ In i (active_at t e (S k) st) -> untouched st st' i).
  Proof.
    intros HX. unfold nids. begin act s1.
    assert (Q1 : forall i, In i act -> Xis X i (px s1 i) /\ Ais "x_old" XO i (px s1 i) /\ Ais "g" G i (px s1 i)). { intros i Hi. rewrite P. apply HX. nodes. }
    edestruct (upd_phase t e act s1 d) with (Q := fun i p => exists g, gradient_of grad i (X i) g /\ Xis X i p /\
        dget String.eqb (v_aux p) "g"%string = Some (AArr g) /\
        dget String.eqb (v_aux p) "y"%string = Some (AArr (vadd (vsub (vsub (vscal 2 (X i)) (XO i)) (vscal a g)) (vscal a (G i)))))
      as (d2 & s2 & -> & C2 & Q2' & N2 & M2 & _); auto.
    { unfold Xis, Ais in *. body Q1. run_body. eexists. split; [exists n; reflexivity|]. auto. }
    apply (choice_list _ vzero) in Q2'. destruct Q2' as (Gn & Q2).
    set (Yv := fun j => vadd (vsub (vsub (vscal 2 (X j)) (XO j)) (vscal a (Gn j))) (vscal a (G j))).
    edestruct (bcast_phase t e WF SV FA act s2 d2) with (c := dflt) (V := Yv) (Q := fun i p => Xis X i p /\ Ais "g" Gn i p /\ Ais "y" Yv i p)
      as (d3 & s3 & D & -> & C3 & Q3 & N3 & DE & I3 & O3 & _); auto.
    { intros r s Hr. unfold lk. rewrite M2. now apply L. }
    { unfold Xis, Ais in *. body Q2. run_body. auto. }
    edestruct (upd_phase t e act s3 d3) with (Q := fun i p => v_x p = Some (mix (halfW W) (D i) Yv i) /\ Ais "g" Gn i p /\ Ais "x_old" X i p)
      as (d4 & s4 & -> & C4 & Q4 & N4 & _); auto.
    { unfold Xis, Ais in *. body Q3. run_body. rewrite I3 by nodes. rewrite wavg_mix. auto. }
    exists d4, s4, D, Gn. split; auto. split; auto. split.
    - intros i Hi. split; [apply Q2; auto|]. apply (Q4 i Hi).
    - intros i Hi. apply untouched_px. rewrite N4, N3, N2; auto.
  Qed.

  Lemma ed_step a k d st X Y YN : (forall i, In i (t_nodes t) -> state_is st i (X i) /\ aux_is st i "y" (Y i) /\ aux_is st i "y_new" (YN i)) ->
    exists d' st' D, do_phases t e (ed W grad a k) (d, step t k st) = ((d', st'), false) /\
      delivery t e (active_at t e k st) D /\
      (forall i, In i (active_at t e k st) -> let x' := mix (halfW W) (D i) (fun j => vsub (vadd (X j) (YN j)) (Y j)) i in
         exists g, gradient_of grad i x' g /\ state_is st' i x' /\ aux_is st' i "y" (YN i) /\ aux_is st' i "y_new" (vsub x' (vscal a g))) /\
      (forall i, ~ In i (active_at t e k st) -> untouched st st' i).
  Proof.
    intros HX. unfold ed. begin act s1.
    assert (Q1 : forall i, In i act -> Xis X i (px s1 i) /\ Ais "y" Y i (px s1 i) /\ Ais "y_new" YN i (px s1 i)). { intros i Hi. rewrite P. apply HX. nodes. }
    set (M := fun j => vsub (vadd (X j) (YN j)) (Y j)).
    edestruct (bcast_phase t e WF SV FA act s1 d) with (c := dflt) (V := M) (Q := fun i p => Ais "msg" M i p /\ Ais "y_new" YN i p)
      as (d2 & s2 & D & -> & C2 & Q2 & N2 & DE & I2 & O2 & _); auto.
    { unfold Xis, Ais in *. body Q1. run_body. auto. }
    edestruct (upd_phase t e act s2 d2) with (Q := fun i p => let x' := mix (halfW W) (D i) M i in
         exists g, gradient_of grad i x' g /\ v_x p = Some x' /\ Ais "y" YN i p /\ dget String.eqb (v_aux p) "y_new"%string = Some (AArr (vsub x' (vscal a g))))
      as (d3 & s3 & -> & C3 & Q3 & N3 & _); auto.
    { unfold Xis, Ais in *. body Q2. run_body. rewrite I2 by nodes. rewrite wavg_mix. eexists. split; [exists n; reflexivity|auto]. }
    exists d3, s3, D. split; auto. split; auto. split; [exact Q3|].
    intros i Hi. apply untouched_px. rewrite N3, N2; auto.
  Qed.

  Lemma wang_elia_step a k d st X Z : (forall i, In i (t_nodes t) -> state_is st i (X i) /\ aux_is st i "z" (Z i)) ->
    exists d' st' D1 D2, do_phases t e (wang_elia W grad a k) (d, step t k st) = ((d', st'), false) /\
      delivery t e (active_at t e k st) D1 /\ delivery t e (active_at t e k st) D2 /\
      (forall i, In i (active_at t e k st) -> 
         exists g, gradient_of grad i (X i) g /\ state_is st' i (vsub (vsub (X i) (mix (weK W) (D1 i) (fun j => vadd (X j) (Z j)) i)) (vscal a g)) /\
           aux_is st' i "z" (vadd (Z i) (mix (weK W) (D2 i) X i)) /\ aux_is st' i "x_old" (X i)) /\
      (forall i, ~ In i (active_at t e k st) -> untouched st st' i).
  Proof.
    intros HX. unfold wang_elia. begin act s1.
    assert (Q1 : forall i, In i act -> Xis X i (px s1 i) /\ Ais "z" Z i (px s1 i)). { intros i Hi. rewrite P. apply HX. nodes. }
    set (M := fun j => vadd (X j) (Z j)).
    edestruct (bcast_phase t e WF SV FA act s1 d) with (c := "state"%string) (V := M) (Q := fun i p => Xis X i p /\ Ais "z" Z i p /\ Ais "msg" M i p)
      as (d2 & s2 & D1 & -> & C2 & Q2 & N2 & DE1 & I2 & O2 & _); auto.
    { unfold Xis, Ais in *. body Q1. run_body. auto. }
    edestruct (upd_phase t e act s2 d2) with (Q := fun i p => exists g, gradient_of grad i (X i) g /\
         v_x p = Some (vsub (vsub (X i) (mix (weK W) (D1 i) M i)) (vscal a g)) /\ Ais "z" Z i p /\ Ais "x_old" X i p)
      as (d3 & s3 & -> & C3 & Q3' & N3 & M3 & _); auto.
    { unfold Xis, Ais in *. body Q2. run_body. rewrite I2 by nodes. rewrite wavg_mix. eexists. split; [exists n; reflexivity|auto]. }
    apply (choice_list _ vzero) in Q3'. destruct Q3' as (G & Q3).
    edestruct (bcast_phase t e WF SV FA act s3 d3) with (c := "previous_state"%string) (V := X) (Q := fun i p => 
         v_x p = Some (vsub (vsub (X i) (mix (weK W) (D1 i) M i)) (vscal a (G i))) /\ Ais "z" Z i p /\ Ais "x_old" X i p)
      as (d4 & s4 & D2 & -> & C4 & Q4 & N4 & DE2 & I4 & O4 & _); auto.
    { intros r s Hr. unfold lk. rewrite M3. fold (lk s2 r "previous_state"%string s). rewrite O2 by discriminate. now apply L. }
    { unfold Xis, Ais in *. body Q3. run_body. auto. }
    edestruct (upd_phase t e act s4 d4) with (Q := fun i p => 
         v_x p = Some (vsub (vsub (X i) (mix (weK W) (D1 i) M i)) (vscal a (G i))) /\ dget String.eqb (v_aux p) "z"%string = Some (AArr (vadd (Z i) (mix (weK W) (D2 i) X i))) /\ Ais "x_old" X i p)
      as (d5 & s5 & -> & C5 & Q5 & N5 & _); auto.
    { unfold Xis, Ais in *. body Q4. run_body. rewrite I4 by nodes. rewrite wavg_mix. auto. }
    exists d5, s5, D1, D2. split; auto. split; auto. split; auto. split.
    - intros i Hi. exists (G i). split; [apply (Q3 i Hi)|]. apply (Q5 i Hi).
    - intros i Hi. apply untouched_px. rewrite N5, N4, N3, N2; auto.
  Qed.

  Lemma led_step tau a b k d st X Y : (forall i, In i (t_nodes t) -> state_is st i (X i) /\ aux_is st i "y" (Y i)) ->
    exists d' st' D Phi, do_phases t e (led W grad tau a b k) (d, step t k st) = ((d', st'), false) /\
      delivery t e (active_at t e k st) D /\
      (forall i, In i (active_at t e k st) ->
         (exists s, local_steps grad i (fun phi g => vsub phi (vadd (vscal a g) (vscal b (Y i)))) tau (X i) (Phi i) s) /\
         state_is st' i (mix W (D i) Phi i) /\ aux_is st' i "y" (vadd (Y i) (vsub (Phi i) (mix W (D i) Phi i)))) /\
      (forall i, ~ In i (active_at t e k st) -> untouched st st' i).
  Proof.
    intros HX. unfold led. begin act s1.
    assert (Q1 : forall i, In i act -> Xis X i (px s1 i) /\ Ais "y" Y i (px s1 i)). { intros i Hi. rewrite P. apply HX. nodes. }
    edestruct (upd_phase t e act s1 d) with (Q := fun i p => exists phi,
        (exists s, local_steps grad i (fun phi g => vsub phi (vadd (vscal a g) (vscal b (Y i)))) tau (X i) phi s) /\
        Ais "y" Y i p /\ dget String.eqb (v_aux p) "phi"%string = Some (AArr phi))
      as (d2 & s2 & -> & C2 & Q2' & N2 & M2 & _); auto.
    { unfold Xis, Ais in *. body Q1. 
      destruct (ltimes_steps grad i (fun phi g => vsub phi (vadd (vscal a g) (vscal b (Y i)))) tau p n (X i)) as (z & d' & E1 & E2).
      do 2 eexists. unfold lbind at 1 2 3, getx, aux. lrun. unfold lbind, lret, gradient in E1. rewrite E1. split; [reflexivity|]. lrun. eauto. }
    apply (choice_list _ vzero) in Q2'. destruct Q2' as (Phi & Q2).
    edestruct (bcast_phase t e WF SV FA act s2 d2) with (c := dflt) (V := Phi) (Q := fun i p => Ais "y" Y i p /\ Ais "phi" Phi i p)
      as (d3 & s3 & D & -> & C3 & Q3 & N3 & DE & I3 & O3 & _); auto.
    { intros r s Hr. unfold lk. rewrite M2. now apply L. }
    { unfold Xis, Ais in *. body Q2. run_body. auto. }
    edestruct (upd_phase t e act s3 d3) with (Q := fun i p => v_x p = Some (mix W (D i) Phi i) /\ Ais "y" Y i p /\ Ais "phi" Phi i p)
      as (d4 & s4 & -> & C4 & Q4 & N4 & _); auto.
    { unfold Xis, Ais in *. body Q3. run_body. rewrite I3 by nodes. rewrite wavg_mix. auto. }
    edestruct (upd_phase t e act s4 d4) with (Q := fun i p => v_x p = Some (mix W (D i) Phi i) /\ dget String.eqb (v_aux p) "y"%string = Some (AArr (vadd (Y i) (vsub (Phi i) (mix W (D i) Phi i)))))
      as (d5 & s5 & -> & C5 & Q5 & N5 & _); auto.
    { unfold Xis, Ais in *. body Q4. run_body. auto. }
    exists d5, s5, D, Phi. split; auto. split; auto. split.
    - intros i Hi. split; [apply (Q2 i Hi)|]. apply (Q5 i Hi).
    - intros i Hi. apply untouched_px. rewrite N5, N4, N3, N2; auto.
  Qed.

  Lemma prox_skip_step coin chi a b k d st X Y : (forall i, In i (t_nodes t) -> state_is st i (X i) /\ aux_is st i "y" (Y i)) ->
    exists d' st' D Z, do_phases t e (prox_skip W grad coin chi a b k) (d, step t k st) = ((d', st'), false) /\
      delivery t e (active_at t e k st) D /\
      (forall i, In i (active_at t e k st) -> exists g, gradient_of grad i (X i) g /\ Z i = vsub (vsub (X i) (vscal a g)) (Y i) /\
         if coin k then state_is st' i (mix (psW W chi) (D i) Z i) /\ aux_is st' i "y" (vadd (Y i) (vscal b (vsub (Z i) (mix (psW W chi) (D i) Z i))))
         else state_is st' i (Z i) /\ aux_is st' i "y" (Y i)) /\
      (forall i, ~ In i (active_at t e k st) -> untouched st st' i).
  Proof.
    intros HX. unfold prox_skip. begin act s1.
    assert (Q1 : forall i, In i act -> Xis X i (px s1 i) /\ Ais "y" Y i (px s1 i)). { intros i Hi. rewrite P. apply HX. nodes. }
    edestruct (upd_phase t e act s1 d) with (Q := fun i p => exists z, (exists g, gradient_of grad i (X i) g /\ z = vsub (vsub (X i) (vscal a g)) (Y i)) /\
        Ais "y" Y i p /\ dget String.eqb (v_aux p) "z"%string = Some (AArr z))
      as (d2 & s2 & -> & C2 & Q2' & N2 & M2 & _); auto.
    { unfold Xis, Ais in *. body Q1. run_body. eexists. split; [eexists; split; [exists n; reflexivity|reflexivity]|]. auto. }
    apply (choice_list _ vzero) in Q2'. destruct Q2' as (Z & Q2).
    destruct (coin k); cbn [do_phases].
    - edestruct (bcast_phase t e WF SV FA act s2 d2) with (c := dflt) (V := Z) (Q := fun i p => Ais "y" Y i p /\ Ais "z" Z i p)
        as (d3 & s3 & D & -> & C3 & Q3 & N3 & DE & I3 & O3 & _); auto.
      { intros r s Hr. unfold lk. rewrite M2. now apply L. }
      { unfold Xis, Ais in *. body Q2. run_body. auto. }
      edestruct (upd_phase t e act s3 d3) with (Q := fun i p => v_x p = Some (mix (psW W chi) (D i) Z i) /\
          dget String.eqb (v_aux p) "y"%string = Some (AArr (vadd (Y i) (vscal b (vsub (Z i) (mix (psW W chi) (D i) Z i))))))
        as (d4 & s4 & -> & C4 & Q4 & N4 & _); auto.
      { unfold Xis, Ais in *. body Q3. run_body. rewrite I3 by nodes. rewrite wavg_mix. auto. }
      exists d4, s4, D, Z. split; auto. split; auto. split.
      + intros i Hi. destruct (Q2 i Hi) as ((g & G1 & G2) & _). exists g. split; auto. split; auto. apply (Q4 i Hi).
      + intros i Hi. apply untouched_px. rewrite N4, N3, N2; auto.
    - edestruct (upd_phase t e act s2 d2) with (Q := fun i p => Xis Z i p /\ Ais "y" Y i p)
        as (d3 & s3 & -> & C3 & Q3 & N3 & _); auto.
      { unfold Xis, Ais in *. body Q2. run_body. auto. }
      exists d3, s3, (fun i => filter (fun j => memb j act) (t_adj t i)), Z. split; auto. split; [|split].
      + intros i. destruct WF as (_ & _ & NA & _). split; [apply NoDup_filter, NA|]. split.
        * intros j Hj. apply filter_In in Hj. now rewrite memb_In in Hj.
        * intros _ _ j Hj Ha. apply filter_In. now rewrite memb_In.
      + intros i Hi. destruct (Q2 i Hi) as ((g & G1 & G2) & _). exists g. split; auto. split; auto. apply (Q3 i Hi).
      + intros i Hi. apply untouched_px. rewrite N3, N2; auto.
  Qed.

  Lemma kgt_step kk a b k d st X Cv : (forall i, In i (t_nodes t) -> state_is st i (X i) /\ aux_is st i "c" (Cv i)) ->
    exists d' st' D XK, do_phases t e (kgt W grad kk a b k) (d, step t k st) = ((d', st'), false) /\
      delivery t e (active_at t e k st) D /\
      let Z := fun i => vscal (/ (INR kk * a)) (vsub (X i) (XK i)) in
      let M := fun i => vsub (X i) (vscal (INR kk * b * a) (Z i)) in
      (forall i, In i (active_at t e k st) ->
         (exists s, local_steps grad i (fun x g => vsub x (vscal a (vadd g (Cv i)))) kk (X i) (XK i) s) /\
         state_is st' i (mix W (D i) M i) /\
         aux_is st' i "c" (vadd (vsub (Cv i) (Z i)) (mix W (D i) Z i))) /\
      (forall i, ~ In i (active_at t e k st) -> untouched st st' i).
  Proof.
    intros HX. unfold kgt. begin act s1.
    assert (Q1 : forall i, In i act -> Xis X i (px s1 i) /\ Ais "c" Cv i (px s1 i)). { intros i Hi. rewrite P. apply HX. nodes. }
    edestruct (upd_phase t e act s1 d) with (Q := fun i p => exists xk,
        (exists s, local_steps grad i (fun x g => vsub x (vscal a (vadd g (Cv i)))) kk (X i) xk s) /\
        Ais "c" Cv i p /\ Ais "x_before_local" X i p /\ v_x p = Some xk)
      as (d2 & s2 & -> & C2 & Q2' & N2 & M2 & _); auto.
    { unfold Xis, Ais in *. body Q1.
      destruct (ltimes_steps grad i (fun x g => vsub x (vscal a (vadd g (Cv i)))) kk (mkPriv (Some (X i)) (dset String.eqb (v_aux p) "x_before_local"%string (AArr (X i))) (v_nx p)) n (X i)) as (z & d' & E1 & E2).
      do 2 eexists. unfold lbind at 1 2 3 4, getx, put, aux, setx. lrun. unfold lbind, lret, gradient in E1. 
      rewrite E1. split; [reflexivity|]. lrun. eauto. }
    apply (choice_list _ vzero) in Q2'. destruct Q2' as (XK & Q2).
    set (Z := fun i => vscal (/ (INR kk * a)) (vsub (X i) (XK i))). set (M := fun i => vsub (X i) (vscal (INR kk * b * a) (Z i))).
    edestruct (send_phase t e WF SV FA act s2 d2) with (O := fun i => [OBcast "state" (M i); OBcast "gradient_tracker" (Z i)])
       (Q := fun i p => Ais "c" Cv i p /\ Ais "z_i" Z i p /\ Ais "msg" M i p)
      as (d3 & s3 & -> & C3 & Q3 & N3 & A3 & R3 & _); auto.
    { intros i n Hi. split; [repeat constructor|]. revert i n Hi. unfold Xis, Ais in *. body Q2. run_body. auto. }
    assert (L2 : forall c r s, In r (t_nodes t) -> lk s2 r c s = None). { intros c r s Hr. unfold lk. rewrite M2. now apply L. }
    destruct (round_inbox t e WF act s2 s3 _ (fun s _ => M s) "state"%string C2 C3 (L2 _) A3 R3) as (D1 & DE1 & I1).
    { intros s r v _ (o & [<-|[<-|[]]] & E & ->); [reflexivity|discriminate]. }
    { intros s r _ _. eexists. split; [left; reflexivity|]. cbn. auto. }
    destruct (round_inbox t e WF act s2 s3 _ (fun s _ => Z s) "gradient_tracker"%string C2 C3 (L2 _) A3 R3) as (D2 & DE2 & I2).
    { intros s r v _ (o & [<-|[<-|[]]] & E & ->); [discriminate|reflexivity]. }
    { intros s r _ _. eexists. split; [right; left; reflexivity|]. cbn. auto. }
    edestruct (upd_phase t e act s3 d3) with (Q := fun i p => v_x p = Some (mix W (filter (fun j => memb j (D2 i)) (D1 i)) M i) /\
        dget String.eqb (v_aux p) "c"%string = Some (AArr (vadd (vsub (Cv i) (Z i)) (mix W (filter (fun j => memb j (D1 i)) (D2 i)) Z i))))
      as (d4 & s4 & -> & C4 & Q4 & N4 & _); auto.
    { unfold Xis, Ais in *. body Q3. run_body. rewrite I1, I2 by nodes. rewrite !both_map, !wavg_mix. auto. }
    exists d4, s4, (fun i => filter (fun j => memb j (D2 i)) (D1 i)), XK. split; auto. split; [|split].
    - intro i. destruct (DE1 i) as (X1 & X2 & X3), (DE2 i) as (Y1 & Y2 & Y3). split; [now apply NoDup_filter|]. split.
      + intros j Hj. apply filter_In in Hj. apply X2. tauto.
      + intros RE Hi j Hj Ha. apply filter_In. rewrite memb_In. split; auto.
    - intros i Hi. split; [apply (Q2 i Hi)|]. destruct (Q4 i Hi) as (E1 & E2). split; [exact E1|].
      unfold aux_is. cbn in E2. rewrite E2. rewrite (mix_perm W (filter (fun j => memb j (D1 i)) (D2 i)) (filter (fun j => memb j (D2 i)) (D1 i))); [reflexivity|].
      destruct (DE1 i) as (X1 & _), (DE2 i) as (Y1 & _).
      apply NoDup_Permutation; [now apply NoDup_filter|now apply NoDup_filter|]. intro j. rewrite !filter_In, !memb_In. tauto.
    - intros i Hi. apply untouched_px. rewrite N4, N3, N2; auto.
  Qed.


  Definition Mis (k : string) (Z : agent_id -> agent_id -> vec) (i : agent_id) (p : priv) : Prop :=
    dget String.eqb (v_aux p) k = Some (AMap (rows t i (Z i))).
  Lemma rowmap_rows i (Z : agent_id -> vec) f j : In j (t_adj t i) -> rowmap (rows t i Z) f j = Some (f (Z j)).
  Proof. intro H. unfold rowmap, row, rows. now rewrite rows_dget. Qed.

  Lemma admm_step rho al k d st X Z :
    (forall i, In i (t_nodes t) -> state_is st i (X i) /\ auxmap_is st i "z" (rows t i (Z i))) ->
    exists d' st' D X', do_phases t e (admm t prox rho al k) (d, step t k st) = ((d', st'), false) /\
      delivery t e (active_at t e k st) D /\
      (forall i, In i (active_at t e k st) ->
         (exists n, X' i = prox n i (vscal (/ (rho * deg t i)) (vsum (map (Z i) (t_adj t i)))) (/ (rho * deg t i))) /\
         state_is st' i (X' i) /\
         auxmap_is st' i "z" (rows t i (fun j => if memb j (D i)
            then vsub (vscal (1 - al) (Z i j)) (vscal al (vsub (Z j i) (vscal (2 * rho) (X' j)))) else Z i j))) /\
      (forall i, ~ In i (active_at t e k st) -> untouched st st' i).
  Proof.
    intros HX. unfold admm. begin act s1.
    assert (Q1 : forall i, In i act -> Xis X i (px s1 i) /\ Mis "z" Z i (px s1 i)). { intros i Hi. rewrite P. apply HX. nodes. }
    edestruct (upd_phase t e act s1 d) with (Q := fun i p => exists x, (exists n, x = prox n i (vscal (/ (rho * deg t i)) (vsum (map (Z i) (t_adj t i)))) (/ (rho * deg t i))) /\
        v_x p = Some x /\ Mis "z" Z i p)
      as (d2 & s2 & -> & C2 & Q2' & N2 & M2 & _); auto.
    { unfold Xis, Ais, Mis in *. body Q1. run_body. eexists. split; [|auto]. exists n. unfold rows_sum, rows. rewrite map_map. reflexivity. }
    apply (choice_list _ vzero) in Q2'. destruct Q2' as (X' & Q2).
    edestruct (send_phase t e WF SV FA act s2 d2) with (O := fun i => [OEach [(dflt, rowmap (rows t i (Z i)) (fun zj => vsub zj (vscal (2 * rho) (X' i))))]])
       (Q := fun i p => Xis X' i p /\ Mis "z" Z i p)
      as (d3 & s3 & -> & C3 & Q3 & N3 & A3 & R3 & _); auto.
    { intros i n Hi. split.
      - constructor; [|constructor]. intros c f j [[= <- <-]|[]] Hj. rewrite rowmap_rows by auto. discriminate.
      - revert i n Hi. unfold Xis, Ais, Mis in *. body Q2. run_body. auto. }
    assert (L2 : forall c r s, In r (t_nodes t) -> lk s2 r c s = None). { intros c r s Hr. unfold lk. rewrite M2. now apply L. }
    pose proof WF as (_ & AD & NA & _).
    destruct (round_inbox t e WF act s2 s3 _ (fun s r => vsub (Z s r) (vscal (2 * rho) (X' s))) dflt C2 C3 (L2 _) A3 R3) as (D & DE & I3).
    { intros s r v _ (o & [<-|[]] & f & [[= <-]|[]] & E). unfold rowmap in E.
      destruct (row (rows t s (Z s)) r) as [z|] eqn:Er; [|discriminate]. injection E as <-.
      unfold row, rows in Er. pose proof Er as Er'. apply (dget_In _ _ _ Nat.eqb_spec) in Er'. apply in_map_iff in Er'.
      destruct Er' as (j & [= -> <-] & _). reflexivity. }
    { intros s r _ Hr. eexists. split; [left; reflexivity|]. eexists. split; [left; reflexivity|]. now rewrite rowmap_rows. }
    edestruct (upd_phase t e act s3 d3) with (Q := fun i p => Xis X' i p /\ 
        dget String.eqb (v_aux p) "z"%string = Some (AMap (rows t i (fun j => if memb j (D i)
            then vsub (vscal (1 - al) (Z i j)) (vscal al (vsub (Z j i) (vscal (2 * rho) (X' j)))) else Z i j))))
      as (d4 & s4 & -> & C4 & Q4 & N4 & _); auto.
    { unfold Xis, Mis in *. body Q3. rewrite I3 by nodes.
      destruct (lfor_rows relax (fun zj v => vsub (vscal (1 - al) zj) (vscal al v)) "z" al (t_adj t i) (fun j => vsub (Z j i) (vscal (2 * rho) (X' j)))
        (fun p n z j v zj => relax_ok "z" al p n z j v zj) (NA i) (D i) (Z i) p n) as (p' & E1 & E2 & E3 & _); auto.
      - apply (DE i).
      - intros j Hj. now apply (DE i).
      - exists p', n. split; [exact E1|]. split; [congruence|]. exact E3. }
    exists d4, s4, D, X'. split; auto. split; auto. split.
    - intros i Hi. split; [apply (Q2 i Hi)|]. apply (Q4 i Hi).
    - intros i Hi. apply untouched_px. rewrite N4, N3, N2; auto.
  Qed.

  Lemma lt_admm_step tau ga be rho al k d st X Z :
    (forall i, In i (t_nodes t) -> state_is st i (X i) /\ auxmap_is st i "z_i" (rows t i (Z i))) ->
    exists d' st' D X', do_phases t e (lt_admm t grad tau ga be rho al k) (d, step t k st) = ((d', st'), false) /\
      delivery t e (active_at t e k st) D /\
      (forall i, In i (active_at t e k st) ->
         (exists s, local_steps grad i (fun phi g => vsub phi (vadd (vscal ga g) (vscal be (vsub (vscal (rho * deg t i) (X i)) (vsum (map (Z i) (t_adj t i))))))) tau (X i) (X' i) s) /\
         state_is st' i (X' i) /\
         auxmap_is st' i "z_i" (rows t i (fun j => if memb j (D i)
            then vsub (vscal (1 - al) (Z i j)) (vscal al (vsub (Z j i) (vscal (2 * rho) (X' j)))) else Z i j))) /\
      (forall i, ~ In i (active_at t e k st) -> untouched st st' i).
  Proof.
    intros HX. unfold lt_admm. begin act s1.
    assert (Q1 : forall i, In i act -> Xis X i (px s1 i) /\ Mis "z_i" Z i (px s1 i)). { intros i Hi. rewrite P. apply HX. nodes. }
    edestruct (upd_phase t e act s1 d) with (Q := fun i p => exists x, 
        (exists s, local_steps grad i (fun phi g => vsub phi (vadd (vscal ga g) (vscal be (vsub (vscal (rho * deg t i) (X i)) (vsum (map (Z i) (t_adj t i))))))) tau (X i) x s) /\
        v_x p = Some x /\ Mis "z_i" Z i p)
      as (d2 & s2 & -> & C2 & Q2' & N2 & M2 & _); auto.
    { unfold Xis, Ais, Mis in *. body Q1.
      destruct (ltimes_steps grad i (fun phi g => vsub phi (vadd (vscal ga g) (vscal be (vsub (vscal (rho * deg t i) (X i)) (rows_sum (rows t i (Z i))))))) tau p n (X i)) as (z & d' & E1 & E2).
      do 2 eexists. unfold lbind at 1 2 3 4, getx, auxm, put, setx. lrun. unfold lbind, lret, gradient in E1. rewrite E1. split; [reflexivity|]. lrun. 
      unfold rows_sum, rows in E2. rewrite map_map in E2. cbn [snd] in E2. exists z. auto. }
    apply (choice_list _ vzero) in Q2'. destruct Q2' as (X' & Q2).
    edestruct (send_phase t e WF SV FA act s2 d2) with (O := fun i => [OEach [(dflt, rowmap (rows t i (Z i)) (fun zj => vsub zj (vscal (2 * rho) (X' i))))]])
       (Q := fun i p => Xis X' i p /\ Mis "z_i" Z i p)
      as (d3 & s3 & -> & C3 & Q3 & N3 & A3 & R3 & _); auto.
    { intros i n Hi. split.
      - constructor; [|constructor]. intros c f j [[= <- <-]|[]] Hj. rewrite rowmap_rows by auto. discriminate.
      - revert i n Hi. unfold Xis, Ais, Mis in *. body Q2. run_body. auto. }
    assert (L2 : forall c r s, In r (t_nodes t) -> lk s2 r c s = None). { intros c r s Hr. unfold lk. rewrite M2. now apply L. }
    pose proof WF as (_ & AD & NA & _).
    destruct (round_inbox t e WF act s2 s3 _ (fun s r => vsub (Z s r) (vscal (2 * rho) (X' s))) dflt C2 C3 (L2 _) A3 R3) as (D & DE & I3).
    { intros s r v _ (o & [<-|[]] & f & [[= <-]|[]] & E). unfold rowmap in E.
      destruct (row (rows t s (Z s)) r) as [z|] eqn:Er; [|discriminate]. injection E as <-.
      unfold row, rows in Er. pose proof Er as Er'. apply (dget_In _ _ _ Nat.eqb_spec) in Er'. apply in_map_iff in Er'.
      destruct Er' as (j & [= -> <-] & _). reflexivity. }
    { intros s r _ Hr. eexists. split; [left; reflexivity|]. eexists. split; [left; reflexivity|]. now rewrite rowmap_rows. }
    edestruct (upd_phase t e act s3 d3) with (Q := fun i p => Xis X' i p /\ 
        dget String.eqb (v_aux p) "z_i"%string = Some (AMap (rows t i (fun j => if memb j (D i)
            then vsub (vscal (1 - al) (Z i j)) (vscal al (vsub (Z j i) (vscal (2 * rho) (X' j)))) else Z i j))))
      as (d4 & s4 & -> & C4 & Q4 & N4 & _); auto.
    { unfold Xis, Mis in *. body Q3. rewrite I3 by nodes.
      destruct (lfor_rows relax (fun zj v => vsub (vscal (1 - al) zj) (vscal al v)) "z_i" al (t_adj t i) (fun j => vsub (Z j i) (vscal (2 * rho) (X' j)))
        (fun p n z j v zj => relax_ok "z_i" al p n z j v zj) (NA i) (D i) (Z i) p n) as (p' & E1 & E2 & E3 & _); auto.
      - apply (DE i).
      - intros j Hj. now apply (DE i).
      - exists p', n. split; [exact E1|]. split; [congruence|]. exact E3. }
    exists d4, s4, D, X'. split; auto. split; auto. split.
    - intros i Hi. split; [apply (Q2 i Hi)|]. apply (Q4 i Hi).
    - intros i Hi. apply untouched_px. rewrite N4, N3, N2; auto.
  Qed.

  Lemma atg_step rho al ga de k d st X ZY ZS :
    (forall i, In i (t_nodes t) -> state_is st i (X i) /\ auxmap_is st i "z_y" (rows t i (ZY i)) /\ auxmap_is st i "z_s" (rows t i (ZS i))) ->
    let Y := fun i => vscal (/ (1 + rho * deg t i)) (vadd (X i) (vsum (map (ZY i) (t_adj t i)))) in
    exists d' st' D G, let S := fun i => vscal (/ (1 + rho * deg t i)) (vadd (G i) (vsum (map (ZS i) (t_adj t i)))) in
      do_phases t e (atg t grad rho al ga de k) (d, step t k st) = ((d', st'), false) /\
      delivery t e (active_at t e k st) D /\
      (forall i, In i (active_at t e k st) -> gradient_of grad i (X i) (G i) /\
         state_is st' i (vadd (vscal (1 - ga) (X i)) (vscal ga (vsub (Y i) (vscal de (S i))))) /\
         auxmap_is st' i "z_y" (rows t i (fun j => if memb j (D i)
            then vadd (vscal (1 - al) (ZY i j)) (vscal al (vadd (vscal (-1) (ZY j i)) (vscal (2 * rho) (Y j)))) else ZY i j)) /\
         auxmap_is st' i "z_s" (rows t i (fun j => if memb j (D i)
            then vadd (vscal (1 - al) (ZS i j)) (vscal al (vadd (vscal (-1) (ZS j i)) (vscal (2 * rho) (S j)))) else ZS i j))) /\
      (forall i, ~ In i (active_at t e k st) -> untouched st st' i).
  Proof.
    intros HX Y. unfold atg. begin act s1.
    assert (Q1 : forall i, In i act -> Xis X i (px s1 i) /\ Mis "z_y" ZY i (px s1 i) /\ Mis "z_s" ZS i (px s1 i)). { intros i Hi. rewrite P. apply HX. nodes. }
    edestruct (upd_phase t e act s1 d) with (Q := fun i p => exists g, gradient_of grad i (X i) g /\ 
        (let s := vscal (/ (1 + rho * deg t i)) (vadd g (vsum (map (ZS i) (t_adj t i)))) in
        v_x p = Some (vadd (vscal (1 - ga) (X i)) (vscal ga (vsub (Y i) (vscal de s)))) /\ Ais "y" Y i p /\ dget String.eqb (v_aux p) "s"%string = Some (AArr s)) /\
        Mis "z_y" ZY i p /\ Mis "z_s" ZS i p)
      as (d2 & s2 & -> & C2 & Q2' & N2 & M2 & _); auto.
    { unfold Xis, Ais, Mis in *. body Q1. run_body. exists (grad n i (X i)). split; [exists n; reflexivity|]. unfold rows_sum, rows. rewrite !map_map. cbn [snd]. auto. }
    apply (choice_list _ vzero) in Q2'. destruct Q2' as (G & Q2).
    set (S := fun i => vscal (/ (1 + rho * deg t i)) (vadd (G i) (vsum (map (ZS i) (t_adj t i))))).
    set (X' := fun i => vadd (vscal (1 - ga) (X i)) (vscal ga (vsub (Y i) (vscal de (S i))))).
    edestruct (send_phase t e WF SV FA act s2 d2) with (O := fun i => [OEach [("z_y"%string, rowmap (rows t i (ZY i)) (fun z => vadd (vscal (-1) z) (vscal (2 * rho) (Y i))));
                     ("z_s"%string, rowmap (rows t i (ZS i)) (fun z => vadd (vscal (-1) z) (vscal (2 * rho) (S i))))]])
       (Q := fun i p => Xis X' i p /\ Mis "z_y" ZY i p /\ Mis "z_s" ZS i p)
      as (d3 & s3 & -> & C3 & Q3 & N3 & A3 & R3 & _); auto.
    { intros i n Hi. split.
      - constructor; [|constructor]. intros c f j [[= <- <-]|[[= <- <-]|[]]] Hj; rewrite rowmap_rows by auto; discriminate.
      - revert i n Hi. unfold Xis, Ais, Mis in *. body Q2. run_body. auto. }
    assert (L2 : forall c r s, In r (t_nodes t) -> lk s2 r c s = None). { intros c r s Hr. unfold lk. rewrite M2. now apply L. }
    pose proof WF as (_ & AD & NA & _).
    assert (RM : forall ZZ s r f v, rowmap (rows t s (ZZ s)) f r = Some v -> v = f (ZZ s r)).
    { intros ZZ s r f v E. unfold rowmap in E.
      destruct (row (rows t s (ZZ s)) r) as [z|] eqn:Er; [|discriminate]. injection E as <-.
      unfold row, rows in Er. pose proof Er as Er'. apply (dget_In _ _ _ Nat.eqb_spec) in Er'. apply in_map_iff in Er'.
      destruct Er' as (j & [= -> <-] & _). reflexivity. }
    destruct (round_inbox t e WF act s2 s3 _ (fun s r => vadd (vscal (-1) (ZY s r)) (vscal (2 * rho) (Y s))) "z_y"%string C2 C3 (L2 _) A3 R3) as (D1 & DE1 & I1).
    { intros s r v _ (o & [<-|[]] & f & [[= <-]|[[=]|[]]] & E). now apply RM in E. }
    { intros s r _ Hr. eexists. split; [left; reflexivity|]. eexists. split; [left; reflexivity|]. now rewrite rowmap_rows. }
    destruct (round_inbox t e WF act s2 s3 _ (fun s r => vadd (vscal (-1) (ZS s r)) (vscal (2 * rho) (S s))) "z_s"%string C2 C3 (L2 _) A3 R3) as (D2 & DE2 & I2).
    { intros s r v _ (o & [<-|[]] & f & [[=]|[[= <-]|[]]] & E). now apply RM in E. }
    { intros s r _ Hr. eexists. split; [left; reflexivity|]. eexists. split; [right; left; reflexivity|]. now rewrite rowmap_rows. }
    edestruct (upd_phase t e act s3 d3) with (Q := fun i p => Xis X' i p /\ 
        dget String.eqb (v_aux p) "z_y"%string = Some (AMap (rows t i (fun j => if memb j (filter (fun j => memb j (D2 i)) (D1 i))
            then vadd (vscal (1 - al) (ZY i j)) (vscal al (vadd (vscal (-1) (ZY j i)) (vscal (2 * rho) (Y j)))) else ZY i j))) /\
        dget String.eqb (v_aux p) "z_s"%string = Some (AMap (rows t i (fun j => if memb j (filter (fun j => memb j (D1 i)) (D2 i))
            then vadd (vscal (1 - al) (ZS i j)) (vscal al (vadd (vscal (-1) (ZS j i)) (vscal (2 * rho) (S j)))) else ZS i j))))
      as (d4 & s4 & -> & C4 & Q4 & N4 & _); auto.
    { unfold Xis, Mis in *. body Q3. rewrite I1, I2 by nodes. rewrite !both_map.
      destruct (lfor_rows relax_add (fun zj v => vadd (vscal (1 - al) zj) (vscal al v)) "z_y" al (t_adj t i) (fun j => vadd (vscal (-1) (ZY j i)) (vscal (2 * rho) (Y j)))
        (fun p n z j v zj => relax_add_ok "z_y" al p n z j v zj) (NA i) (filter (fun j => memb j (D2 i)) (D1 i)) (ZY i) p n) as (p' & E1 & E2 & E3 & E4); auto.
      { apply NoDup_filter, (DE1 i). } { intros j Hj. apply filter_In in Hj. now apply (DE1 i). }
      destruct (lfor_rows relax_add (fun zj v => vadd (vscal (1 - al) zj) (vscal al v)) "z_s" al (t_adj t i) (fun j => vadd (vscal (-1) (ZS j i)) (vscal (2 * rho) (S j)))
        (fun p n z j v zj => relax_add_ok "z_s" al p n z j v zj) (NA i) (filter (fun j => memb j (D1 i)) (D2 i)) (ZS i) p' n) as (p2 & F1 & F2 & F3 & F4); auto.
      { apply NoDup_filter, (DE2 i). } { intros j Hj. apply filter_In in Hj. now apply (DE2 i). }
      { rewrite E4 by discriminate. assumption. }
      exists p2, n. unfold lbind. rewrite E1, F1. split; [reflexivity|]. split; [congruence|]. split; [|exact F3]. rewrite F4 by discriminate. exact E3. }
    exists d4, s4, (fun i => filter (fun j => memb j (D2 i)) (D1 i)), G. split; auto. split; [|split].
    - intro i. destruct (DE1 i) as (X1 & X2 & X3), (DE2 i) as (Y1 & Y2 & Y3). split; [now apply NoDup_filter|]. split.
      + intros j Hj. apply filter_In in Hj. apply X2. tauto.
      + intros RE Hi j Hj Ha. apply filter_In. rewrite memb_In. split; auto.
    - intros i Hi. split; [apply (Q2 i Hi)|]. destruct (Q4 i Hi) as (E1 & E2 & E3). split; [exact E1|]. split; [exact E2|].
      unfold auxmap_is. cbn in E3. rewrite E3. do 2 f_equal. apply map_ext. intro j. f_equal.
      replace (memb j (filter (fun j => memb j (D1 i)) (D2 i))) with (memb j (filter (fun j => memb j (D2 i)) (D1 i))); [reflexivity|].
      apply eq_true_iff_eq. rewrite !memb_In, !filter_In, !memb_In. tauto.
    - intros i Hi. apply untouched_px. rewrite N4, N3, N2; auto.
  Qed.
End Steps.
