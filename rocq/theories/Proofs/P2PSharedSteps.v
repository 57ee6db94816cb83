(** Steps and runs of DLM and DiNNO without shared arrays. *)
From Coq Require Import Reals String List Bool Arith ZArith Lia Lra FunctionalExtensionality Permutation.
From Verif.Model Require Import PyDict History Messages Network Runner Vec P2P P2PShared.
From Verif.Spec Require Import NetworkSpec P2PSpec P2PSharedSpec.
From Verif.Proofs Require Import PyDictProofs NetworkProofs NetworkInv NetworkMore EmpiricalProofs RunnerProofs P2PLock P2PSteps P2PRuns.
Import ListNotations.
Open Scope R_scope.

Definition differ (D : list agent_id) (v : agent_id -> vec) (i : agent_id) : vec := fun c => rsum (map (fun j => v i c - v j c) D).

Lemma msg_sum_c (X : agent_id -> vec) D c : msg_sum (map (fun j => (j, X j)) D) c = rsum (map (fun j => X j c) D).
Proof.
  destruct D as [|j D]; cbn [map msg_sum fst snd]; [reflexivity|].
  assert (G : forall D1 acc, fold_left (fun s (v : agent_id * vec) => vadd s (snd v)) (map (fun j => (j, X j)) D1) acc c = acc c + rsum (map (fun j => X j c) D1)).
  { induction D1 as [|k D1 IH]; intro acc; cbn [map fold_left snd]; [rewrite rsum_nil; lra|]. rewrite IH, rsum_cons. unfold vadd. lra. }
  rewrite G, rsum_cons. lra.
Qed.
Lemma gather_differ (X : agent_id -> vec) D i : vsub (vscal (INR (length (map (fun j => (j, X j)) D))) (X i)) (msg_sum (map (fun j => (j, X j)) D)) = differ D X i.
Proof.
  apply functional_extensionality. intro c. unfold vsub, vscal, differ. rewrite msg_sum_c, map_length.
  induction D as [|j D IH]; cbn [map length]; rewrite ?rsum_nil, ?rsum_cons; [cbn; lra|]. rewrite S_INR, <- IH. lra.
Qed.
Lemma differ_perm D D' v i : Permutation D D' -> differ D v i = differ D' v i.
Proof. intro P. apply functional_extensionality. intro c. unfold differ. apply rsum_perm. now apply Permutation_map. Qed.

Section Steps.
  Variables (t : topo) (e : env vec).
  Hypothesis PT : p2p_topo t.
  Hypothesis FA : faithful e.
  Variable grad : nat -> agent_id -> vec -> vec.
  Notation px st i := (priv_of (n_agents st i)).
  Notation WF := (P2PSteps.WF t PT).
  Notation SV := (P2PSteps.SV t PT).

  Ltac begin act s1 := match goal with |- context [do_phases t e ?phs (?d, step t ?k ?st)] =>
    let E := fresh in let C := fresh "C" in let ND := fresh "ND" in let L := fresh "L" in let P := fresh "P" in
    destruct (P2PSteps.start t e PT phs k d st) as (s1 & E & C & ND & L & P); [discriminate|];
    rewrite E; clear E; set (act := active_at t e k st) in *; cbn [do_phases app] end.
  Ltac nodes := match goal with C : cfg t ?act _, H : In ?i ?act |- In ?i (t_nodes t) => exact (P2PSteps.act_nodes t PT _ _ _ C H) | _ => auto end.

  Definition gathered (D : list agent_id) (X S : agent_id -> vec) (i : agent_id) : vec :=
    match D with [] => S i | _ :: _ => differ D X i end.

  Lemma dlm_step0 mu rho d st X Y S : (forall i, In i (t_nodes t) -> state_is st i (X i) /\ aux_is st i "y" (Y i) /\ aux_is st i "s" (S i)) ->
    exists d' st' D, do_phases t e (dlm_plain grad mu rho 0) (d, step t 0 st) = ((d', st'), false) /\
      delivery t e (active_at t e 0 st) D /\
      (forall i, In i (active_at t e 0 st) -> state_is st' i (X i) /\ aux_is st' i "y" (Y i) /\ aux_is st' i "s" (gathered (D i) X S i)) /\
      (forall i, ~ In i (active_at t e 0 st) -> untouched st st' i).
  Proof.
    intros HX. unfold dlm_plain. begin act s1.
    set (Q := fun i p => v_x p = Some (X i) /\ dget String.eqb (v_aux p) "y"%string = Some (AArr (Y i)) /\ dget String.eqb (v_aux p) "s"%string = Some (AArr (S i))).
    assert (Q1 : forall i, In i act -> Q i (px s1 i)). { intros i Hi. rewrite P. apply HX. nodes. }
    edestruct (bcast_phase t e WF SV FA act s1 d) with (c := dflt) (V := X) (Q := Q)
      as (d2 & s2 & D & E2 & C2 & Q2 & N2 & DE & I2 & O2 & _); auto; [|unfold bcast_x; rewrite E2].
    { unfold Q in *. body Q1. run_body. auto. }
    edestruct (upd_phase t e act s2 d2) with (Q := fun i p => v_x p = Some (X i) /\ dget String.eqb (v_aux p) "y"%string = Some (AArr (Y i)) /\
        dget String.eqb (v_aux p) "s"%string = Some (AArr (gathered (D i) X S i)))
      as (d3 & s3 & E3 & C3 & Q3 & N3 & _); auto; [|unfold dlm_plain_gather; rewrite E3].
    { unfold Q in *. body Q2. rewrite I2 by nodes. unfold gathered. destruct (D i) as [|j D'] eqn:ED; cbn [map]; run_body; auto. rewrite <- gather_differ. auto. }
    exists d3, s3, D. split; auto. split; auto. split; [exact Q3|].
    intros i Hi. apply P2PSteps.untouched_px. rewrite N3, N2; auto.
  Qed.
  Lemma dlm_stepS mu rho k d st X Y S : (forall i, In i (t_nodes t) -> state_is st i (X i) /\ aux_is st i "y" (Y i) /\ aux_is st i "s" (S i)) ->
    exists d' st' D X' G, do_phases t e (dlm_plain grad mu rho (Datatypes.S k)) (d, step t (Datatypes.S k) st) = ((d', st'), false) /\
      delivery t e (active_at t e (Datatypes.S k) st) D /\
      (forall i, In i (active_at t e (Datatypes.S k) st) -> gradient_of grad i (X i) (G i) /\
         X' i = vsub (X i) (vscal mu (vadd (vadd (G i) (vscal rho (S i))) (Y i))) /\ state_is st' i (X' i) /\
         aux_is st' i "s" (gathered (D i) X' S i) /\ aux_is st' i "y" (vadd (Y i) (vscal rho (gathered (D i) X' S i)))) /\
      (forall i, ~ In i (active_at t e (Datatypes.S k) st) -> untouched st st' i).
  Proof.
    intros HX. unfold dlm_plain. begin act s1.
    set (Q := fun i p => v_x p = Some (X i) /\ dget String.eqb (v_aux p) "y"%string = Some (AArr (Y i)) /\ dget String.eqb (v_aux p) "s"%string = Some (AArr (S i))).
    assert (Q1 : forall i, In i act -> Q i (px s1 i)). { intros i Hi. rewrite P. apply HX. nodes. }
    edestruct (upd_phase t e act s1 d) with (Q := fun i p => exists g, gradient_of grad i (X i) g /\
        v_x p = Some (vsub (X i) (vscal mu (vadd (vadd g (vscal rho (S i))) (Y i)))) /\
        dget String.eqb (v_aux p) "y"%string = Some (AArr (Y i)) /\ dget String.eqb (v_aux p) "s"%string = Some (AArr (S i)))
      as (d2 & s2 & -> & C2 & Q2' & N2 & M2 & _); auto.
    { unfold Q in *. body Q1. run_body. eexists. split; [exists n; reflexivity|auto]. }
    apply (choice_list _ vzero) in Q2'. destruct Q2' as (G & Q2').
    set (X' := fun i => vsub (X i) (vscal mu (vadd (vadd (G i) (vscal rho (S i))) (Y i)))).
    set (Q' := fun i p => v_x p = Some (X' i) /\ dget String.eqb (v_aux p) "y"%string = Some (AArr (Y i)) /\ dget String.eqb (v_aux p) "s"%string = Some (AArr (S i))).
    assert (Q2 : forall i, In i act -> Q' i (px s2 i)). { intros i Hi. apply (Q2' i Hi). }
    edestruct (bcast_phase t e WF SV FA act s2 d2) with (c := dflt) (V := X') (Q := Q')
      as (d3 & s3 & D & E3 & C3 & Q3 & N3 & DE & I3 & O3 & _); auto; [| |unfold bcast_x; rewrite E3].
    { intros r s Hr. unfold lk. rewrite M2. now apply L. }
    { unfold Q' in *. body Q2. run_body. auto. }
    edestruct (upd_phase t e act s3 d3) with (Q := fun i p => v_x p = Some (X' i) /\ dget String.eqb (v_aux p) "y"%string = Some (AArr (Y i)) /\
        dget String.eqb (v_aux p) "s"%string = Some (AArr (gathered (D i) X' S i)))
      as (d4 & s4 & E4 & C4 & Q4 & N4 & _); auto; [|unfold dlm_plain_gather; rewrite E4].
    { unfold Q' in *. body Q3. rewrite I3 by nodes. unfold gathered. destruct (D i) as [|j D'] eqn:ED; cbn [map]; run_body; auto. rewrite <- gather_differ. auto. }
    edestruct (upd_phase t e act s4 d4) with (Q := fun i p => v_x p = Some (X' i) /\ dget String.eqb (v_aux p) "s"%string = Some (AArr (gathered (D i) X' S i)) /\
        dget String.eqb (v_aux p) "y"%string = Some (AArr (vadd (Y i) (vscal rho (gathered (D i) X' S i)))))
      as (d5 & s5 & -> & C5 & Q5 & N5 & _); auto.
    { body Q4. run_body. auto. }
    exists d5, s5, D, X', G. split; auto. split; auto. split.
    - intros i Hi. split; [apply (Q2' i Hi)|]. split; [reflexivity|]. apply (Q5 i Hi).
    - intros i Hi. apply P2PSteps.untouched_px. rewrite N5, N4, N3, N2; auto.
  Qed.

  (** the local step of DiNNO *)
  Definition dinno_next (a rho : R) (D : list agent_id) (X : agent_id -> vec) (i : agent_id) (p : vec) (psi g : vec) : vec :=
    vsub psi (vscal a (vadd (vadd g p) (vscal (2 * rho) (fun c => rsum (map (fun j => psi c - (X i c + X j c) / 2) D))))).
  Lemma dinno_local_next a rho i (X : agent_id -> vec) D p psi : 
    dinno_local grad a rho i (X i) p
      (match map (fun j => (j, X j)) D with [] => None | _ :: _ => Some (vscal (/ 2) (msg_sum (map (fun j => (j, X j)) D)), INR (length (map (fun j => (j, X j)) D))) end) psi =
    lbind (gradient grad i psi) (fun g => lret (dinno_next a rho D X i p psi g)).
  Proof.
    unfold dinno_local. f_equal. apply functional_extensionality. intro g. f_equal. unfold dinno_next. do 3 f_equal.
    apply functional_extensionality. intro c.
    assert (G : forall D1, (2 * rho) * (INR (length D1) * (psi c - / 2 * X i c) - / 2 * rsum (map (fun j => X j c) D1)) =
      (2 * rho) * rsum (map (fun j => psi c - (X i c + X j c) / 2) D1)).
    { intro D1. f_equal. induction D1 as [|j D1 IH]; cbn [map length]; rewrite ?rsum_nil, ?rsum_cons; [cbn [INR]; lra|]. rewrite S_INR, <- IH. lra. }
    destruct D as [|j0 D0]; [cbn [map]; unfold vzero, vscal; rewrite rsum_nil; lra|].
    etransitivity; [|exact (G (j0 :: D0))]. 
    assert (MS := msg_sum_c X (j0 :: D0) c). cbn [map] in *. unfold vscal, vsub. rewrite MS. cbn [length]. rewrite map_length. reflexivity.
  Qed.
  Lemma ltimes_ext n op op' : (forall v, op v = op' v) -> forall v, ltimes n op v = ltimes n op' v.
  Proof. intro H. induction n as [|n IH]; intro v; cbn [ltimes]; auto. rewrite H. f_equal. apply functional_extensionality. intro. apply IH. Qed.

  Definition pnew (D : list agent_id) (rho : R) (X Pv : agent_id -> vec) (i : agent_id) : vec :=
    match D with [] => Pv i | _ :: _ => vadd (Pv i) (vscal rho (differ D X i)) end.
  Lemma dinno_step a rho B k d st X Pv : (forall i, In i (t_nodes t) -> state_is st i (X i) /\ aux_is st i "p" (Pv i)) ->
    exists d' st' D, do_phases t e (dinno_plain grad a rho B k) (d, step t k st) = ((d', st'), false) /\
      delivery t e (active_at t e k st) D /\
      (forall i, In i (active_at t e k st) -> aux_is st' i "p" (pnew (D i) rho X Pv i) /\
         exists z s, local_steps grad i (dinno_next a rho (D i) X i (pnew (D i) rho X Pv i)) B (X i) z s /\ state_is st' i z) /\
      (forall i, ~ In i (active_at t e k st) -> untouched st st' i).
  Proof.
    intros HX. unfold dinno_plain. begin act s1.
    set (Q := fun i p => v_x p = Some (X i) /\ dget String.eqb (v_aux p) "p"%string = Some (AArr (Pv i))).
    assert (Q1 : forall i, In i act -> Q i (px s1 i)). { intros i Hi. rewrite P. apply HX. nodes. }
    edestruct (bcast_phase t e WF SV FA act s1 d) with (c := dflt) (V := X) (Q := Q)
      as (d2 & s2 & D & E2 & C2 & Q2 & N2 & DE & I2 & O2 & _); auto; [|unfold bcast_x; rewrite E2].
    { unfold Q in *. body Q1. run_body. auto. }
    edestruct (upd_phase t e act s2 d2) with (Q := fun i p => v_x p = Some (X i) /\ dget String.eqb (v_aux p) "p"%string = Some (AArr (pnew (D i) rho X Pv i)))
      as (d3 & s3 & -> & C3 & Q3 & N3 & M3 & _); auto.
    { unfold Q in *. body Q2. rewrite I2 by nodes. unfold pnew. destruct (D i) as [|j D'] eqn:ED; cbn [map]; run_body; auto. rewrite <- gather_differ. auto. }
    edestruct (upd_phase t e act s3 d3) with (Q := fun i p => dget String.eqb (v_aux p) "p"%string = Some (AArr (pnew (D i) rho X Pv i)) /\
        exists z s, local_steps grad i (dinno_next a rho (D i) X i (pnew (D i) rho X Pv i)) B (X i) z s /\ v_x p = Some z)
      as (d4 & s4 & -> & C4 & Q4 & N4 & _); auto.
    { body Q3. assert (IB : inbox_of s3 i dflt = map (fun j => (j, X j)) (D i)). { rewrite <- I2 by nodes. unfold inbox_of. now rewrite M3. }
      rewrite IB. destruct (ltimes_steps grad i (dinno_next a rho (D i) X i (pnew (D i) rho X Pv i)) B p n (X i)) as (z & d' & E1 & s & E4).
      do 2 eexists. unfold lbind, getx, aux, setx, lret. lrun. rewrite (ltimes_ext B _ _ (dinno_local_next a rho i X (D i) (pnew (D i) rho X Pv i))), E1. split; [reflexivity|].
      cbn [v_x v_aux]. lrun. split; auto. exists z, s. auto. }
    exists d4, s4, D. split; auto. split; auto. split; [exact Q4|].
    intros i Hi. apply P2PSteps.untouched_px. rewrite N4, N3, N2; auto.
  Qed.
End Steps.
