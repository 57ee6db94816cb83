(** C67: initial states. *)
From Coq Require Import Reals List Bool Arith Lia Lra.
From Verif.Model Require Import PyDict Messages Network Vec InitStates.
From Verif.Spec Require Import AggregateSpec NetworkSpec InitSpec.
From Verif.Proofs Require Import PyDictProofs EmpiricalProofs.
Import ListNotations.
Local Open Scope R_scope.

Lemma shape_eqb_spec s s' : reflect (s = s') (shape_eqb s s').
Proof. unfold shape_eqb. destruct (list_eq_dec Nat.eq_dec s s'); constructor; auto. Qed.

(** the value of the last entry for an agent *)
Fixpoint last_of (d : list (x0key * arr)) (a : agent_id) (o : option arr) : option arr :=
  match d with
  | [] => o
  | (KeyAgent i _, v) :: d' => last_of d' a (if Nat.eqb a i then Some v else o)
  | (KeyOther, _) :: d' => last_of d' a o
  end.
Lemma last_of_spec d a : forall o, match last_of d a o with
  | Some v => gives d a v \/ ((forall u, ~ gives d a u) /\ o = Some v)
  | None => (forall u, ~ gives d a u) /\ o = None
  end.
Proof.
  induction d as [|(k & v) d IH]; intro o; cbn [last_of].
  - assert (forall u, ~ gives [] a u) by (intros u (d1 & s & d2 & E & _); destruct d1; discriminate). destruct o; auto.
  - assert (LIFT : forall u, gives d a u -> gives ((k, v) :: d) a u).
    { intros u (d1 & s & d2 & -> & N). exists ((k, v) :: d1), s, d2. auto. }
    assert (LOW : forall u, gives ((k, v) :: d) a u -> gives d a u \/ (exists s, k = KeyAgent a s) /\ u = v /\ forall w, ~ gives d a w).
    { intros u (d1 & s & d2 & E & N). destruct d1 as [|p d1]; cbn in E.
      - right. injection E as -> -> ->. split; [eauto|]. split; [auto|]. intros w (e1 & s' & e2 & -> & _). apply (N s' w). apply in_app_iff. right. left. reflexivity.
      - left. injection E as _ ->. exists d1, s, d2. auto. }
    destruct k as [i s|].
    + destruct (Nat.eqb_spec a i) as [<-|NE].
      * specialize (IH (Some v)). destruct (last_of d a (Some v)) as [w|].
        -- left. destruct IH as [G|(N & [= <-])]; [auto|]. exists [], s, d. split; [reflexivity|]. intros s' v' I. destruct (in_split _ _ I) as (e1 & e2 & E).
           exfalso. clear - N E. revert N E. generalize v'. intros v0 N E.
           assert (EX : exists u, gives d a u).
           { clear N. subst d. generalize dependent e1. intro e1. assert (X : forall e2 e1 s' v0, exists u, gives (e1 ++ (KeyAgent a s', v0) :: e2) a u); [|apply X]. clear.
             intro e2. induction e2 as [|p e2 IH] using rev_ind; intros e1 s' v0.
             - exists v0, e1, s', []. auto.
             - destruct p as (k & v). destruct (k) as [i s|] eqn:K; [destruct (Nat.eq_dec i a) as [->|NE]|].
               + exists v, (e1 ++ (KeyAgent a s', v0) :: e2), s, []. split; [now rewrite <- app_assoc|auto].
               + destruct (IH e1 s' v0) as (u & d1 & s1 & d2 & E & N). exists u, d1, s1, (d2 ++ [(KeyAgent i s, v)]). split.
                 * change (e1 ++ ((KeyAgent a s', v0) :: e2) ++ [(KeyAgent i s, v)] = d1 ++ ((KeyAgent a s1, u) :: d2) ++ [(KeyAgent i s, v)]). rewrite !app_assoc. now rewrite <- E.
                 * intros s2 v2 I. apply in_app_iff in I. destruct I as [I|[[= -> _ _]|[]]]; [now apply (N s2 v2)|congruence].
               + destruct (IH e1 s' v0) as (u & d1 & s1 & d2 & E & N). exists u, d1, s1, (d2 ++ [(KeyOther, v)]). split.
                 * change (e1 ++ ((KeyAgent a s', v0) :: e2) ++ [(KeyOther, v)] = d1 ++ ((KeyAgent a s1, u) :: d2) ++ [(KeyOther, v)]). rewrite !app_assoc. now rewrite <- E.
                 * intros s2 v2 I. apply in_app_iff in I. destruct I as [I|[[=]|[]]]. now apply (N s2 v2). }
           destruct EX as (u & G). exact (N u G).
        -- destruct IH as (_ & [=]).
      * specialize (IH o). destruct (last_of d a o) as [w|].
        -- destruct IH as [G|(N & ->)]; [auto|]. right. split; [|reflexivity]. intros u G. destruct (LOW u G) as [G'|((s' & [= -> _]) & _)]; [exact (N u G')|congruence].
        -- destruct IH as (N & ->). split; [|reflexivity]. intros u G. destruct (LOW u G) as [G'|((s' & [= -> _]) & _)]; [exact (N u G')|congruence].
    + specialize (IH o). destruct (last_of d a o) as [w|].
      * destruct IH as [G|(N & ->)]; [auto|]. right. split; [|reflexivity]. intros u G. destruct (LOW u G) as [G'|((s' & [=]) & _)]. exact (N u G').
      * destruct IH as (N & ->). split; [|reflexivity]. intros u G. destruct (LOW u G) as [G'|((s' & [=]) & _)]. exact (N u G').
Qed.
Lemma gives_unique d a v v' : gives d a v -> gives d a v' -> v = v'.
Proof.
  intros G G'.
  assert (L : forall u, gives d a u -> last_of d a None = Some u); [|apply L in G, G'; congruence].
  clear G G'. intros u (d1 & s & d2 & -> & N). generalize (@None arr).
  induction d1 as [|(k & w) d1 IH]; intro o; cbn [app last_of].
  - rewrite Nat.eqb_refl. clear - N. assert (X : forall d2 o, (forall s' v', ~ In (KeyAgent a s', v') d2) -> last_of d2 a o = o); [|now apply X].
    clear. induction d2 as [|(k & w) d2 IH]; intros o N; cbn [last_of]; [reflexivity|]. destruct k as [i s|].
    + destruct (Nat.eqb_spec a i) as [<-|NE]; [exfalso; apply (N s w); now left|]. apply IH. intros s' v' I. apply (N s' v'). now right.
    + apply IH. intros s' v' I. apply (N s' v'). now right.
  - destruct k; apply IH.
Qed.

Lemma by_id_spec d : forall acc, match by_id d acc with
  | inl m => proper d /\ forall a, dget Nat.eqb m a = last_of d a (dget Nat.eqb acc a)
  | inr e => ~ proper d /\ (e = ITypeError \/ e = IValueError)
  end.
Proof.
  induction d as [|([i s|] & v) d IH]; intro acc; cbn [by_id last_of].
  - split; [constructor|auto].
  - destruct (shape_eqb_spec (ar_shape v) s) as [<-|NE].
    + specialize (IH (dset Nat.eqb acc i v)). destruct (by_id d _) as [m|e].
      * destruct IH as (P & H). split; [constructor; [cbn; eauto|exact P]|]. intro a. rewrite H, (dget_dset _ _ Nat.eqb Nat.eqb_spec). destruct (Nat.eqb a i); reflexivity.
      * destruct IH as (P & H). split; [|exact H]. intro P'. inversion P'. contradiction.
    + split; [|auto]. intro P. inversion P as [|? ? (id & E) _]. cbn in E. congruence.
  - split; [|auto]. intro P. inversion P as [|? ? (id & E) _]. discriminate.
Qed.
Lemma take_spec l d : forall acc, match take l d acc with
  | Some m => (forall a, In a l -> exists v, dget Nat.eqb d a = Some v) /\
              forall a, dget Nat.eqb m a = if in_dec Nat.eq_dec a l then dget Nat.eqb d a else dget Nat.eqb acc a
  | None => exists a, In a l /\ dget Nat.eqb d a = None
  end.
Proof.
  induction l as [|b l IH]; intro acc; cbn [take]; [split; [intros a []|reflexivity]|].
  destruct (dget Nat.eqb d b) as [v|] eqn:E; [|exists b; cbn; auto].
  specialize (IH (dset Nat.eqb acc b v)). destruct (take l d _) as [m|].
  - destruct IH as (H1 & H2). split; [intros a [<-|I]; eauto|]. intro a. rewrite H2, (dget_dset _ _ Nat.eqb Nat.eqb_spec).
    destruct (in_dec Nat.eq_dec a l) as [I|I], (in_dec Nat.eq_dec a (b :: l)) as [J|J]; cbn [In] in *; try tauto.
    + destruct J as [->|J]; [|tauto]. rewrite Nat.eqb_refl. now rewrite E.
    + destruct (Nat.eqb_spec a b) as [->|NE]; [exfalso; auto|reflexivity].
  - destruct IH as (a & I & E'). exists a. cbn. auto.
Qed.
Lemma normalise_spec l d : (forall a, In a l -> exists v, dget Nat.eqb d a = Some v) ->
  exists r, normalise l d = Some r /\ map fst r = l /\ forall a v, In (a, v) r -> dget Nat.eqb d a = Some v.
Proof.
  induction l as [|a l IH]; intro H; cbn [normalise].
  - exists []. repeat split. intros a v [].
  - destruct (H a (or_introl eq_refl)) as (v & E). destruct IH as (r & -> & M & V); [intros; apply H; now right|]. rewrite E. exists ((a, v) :: r). cbn. rewrite M. repeat split.
    intros a' v' [[= <- <-]|I]; auto.
Qed.
Lemma dget_map (g : agent_id -> arr) l a : In a l -> dget Nat.eqb (map (fun a => (a, g a)) l) a = Some (g a).
Proof.
  induction l as [|b l IH]; cbn [map dget In]; [tauto|]. destruct (Nat.eqb_spec a b) as [->|NE]; [auto|]. intros [->|I]; [congruence|auto].
Qed.
Lemma assigns_unique t (P : agent_id -> arr -> Prop) r r' : (forall a v v', P a v -> P a v' -> v = v') -> assigns t P r -> assigns t P r' -> r = r'.
Proof.
  unfold assigns. intros U (M & H) (M' & H'). rewrite <- M in M'. clear M. revert r' M' H'.
  induction r as [|(a & v) r IH]; intros [|(a' & v') r'] M' H'; cbn in M'; try discriminate; [reflexivity|]. injection M' as E M'. cbn [fst] in E. subst a'.
  f_equal; [f_equal; apply (U a); [apply H|apply H']; now left|]. apply IH; [intros; apply H; now right|exact M'|intros; apply H'; now right].
Qed.

(** ** C67 *)
(** None: zeros of every node's own shape. *)
Theorem C67_none t cs : exists r, initial_states t cs X0None = Some (IOk r) /\ assigns t (fun a v => v = mkArr (cs a) (fun _ => 0)) r.
Proof.
  unfold initial_states, finish. destruct (normalise_spec (t_nodes t) (map (fun a => (a, mkArr (cs a) vzero)) (t_nodes t))) as (r & -> & M & V).
  - intros a I. rewrite (dget_map (fun a => mkArr (cs a) vzero)) by exact I. eauto.
  - exists r. split; [reflexivity|]. split; [exact M|]. intros a v I. assert (IN : In a (t_nodes t)) by (rewrite <- M; change a with (fst (a, v)); now apply in_map).
    apply V in I. rewrite (dget_map (fun a => mkArr (cs a) vzero)) in I by exact IN. now injection I as <-.
Qed.
(** An array: that state for every node, if it has every node's shape. *)
Theorem C67_array t cs v :
  ((forall a, In a (t_nodes t) -> ar_shape v = cs a) -> exists r, initial_states t cs (X0Array v) = Some (IOk r) /\ assigns t (fun _ u => u = v) r) /\
  (~ (forall a, In a (t_nodes t) -> ar_shape v = cs a) -> initial_states t cs (X0Array v) = Some IValueError).
Proof.
  unfold initial_states, finish. destruct (forallb _ _) eqn:FB.
  - rewrite forallb_forall in FB. assert (OK : forall a, In a (t_nodes t) -> ar_shape v = cs a).
    { intros a I. specialize (FB a I). cbv beta in FB. destruct (shape_eqb_spec (ar_shape v) (cs a)); [auto|discriminate]. }
    split; [intros _|tauto]. destruct (normalise_spec (t_nodes t) (map (fun a => (a, v)) (t_nodes t))) as (r & -> & M & V).
    + intros a I. rewrite (dget_map (fun _ => v)) by exact I. eauto.
    + exists r. split; [reflexivity|]. split; [exact M|]. intros a u I. assert (IN : In a (t_nodes t)) by (rewrite <- M; change a with (fst (a, u)); now apply in_map).
      apply V in I. rewrite (dget_map (fun _ => v)) in I by exact IN. now injection I as <-.
  - split; [|auto]. intro OK. exfalso. assert (X : forallb (fun a => shape_eqb (ar_shape v) (cs a)) (t_nodes t) = true); [|congruence].
    apply forallb_forall. intros a I. destruct (shape_eqb_spec (ar_shape v) (cs a)) as [|NE]; [auto|]. exfalso. auto.
Qed.
(** Anything else is refused. *)
Theorem C67_other t cs : initial_states t cs X0Other = Some IValueError.
Proof. reflexivity. Qed.

(** A dictionary: accepted iff its keys are agents with values of the right
    shape and every agent of the network is there; then every node gets its
    entry, and a server without entry the mean of the clients. *)
Theorem C67_dictionary t cs d : wf_topo t ->
  (proper d /\ (forall a, In a (agents t) -> exists v, gives d a v) ->
   exists r, initial_states t cs (X0Dict d) = Some (IOk r) /\ assigns t (state_from t d) r) /\
  (~ (proper d /\ forall a, In a (agents t) -> exists v, gives d a v) ->
   initial_states t cs (X0Dict d) = Some ITypeError \/ initial_states t cs (X0Dict d) = Some IValueError).
Proof.
  intros WF. unfold initial_states.
  assert (BI := by_id_spec d []). destruct (by_id d []) as [m|e].
  2:{ destruct BI as (NP & [->| ->]); split; try tauto; intros (P & _); contradiction. }
  destruct BI as (P & HM). cbn [dget] in HM.
  assert (GM : forall a v, dget Nat.eqb m a = Some v <-> gives d a v).
  { intros a v. rewrite HM. pose proof (last_of_spec d a None) as L. destruct (last_of d a None) as [u|].
    - destruct L as [G|(_ & [=])]. split; [intros [= ->]; exact G|]. intro G'. f_equal. eapply gives_unique; eauto.
    - destruct L as (N & _). split; [discriminate|]. intro G. exfalso. exact (N v G). }
  assert (TS := take_spec (agents t) m []). destruct (take (agents t) m []) as [x0s|].
  2:{ destruct TS as (a & I & E). split; [|auto]. intros (_ & H). destruct (H a I) as (v & G). apply GM in G. congruence. }
  destruct TS as (TA & TB). cbn [dget] in TB.
  assert (ALL : forall a, In a (agents t) -> exists v, gives d a v). { intros a I. destruct (TA a I) as (v & E). exists v. now apply GM. }
  assert (X0 : forall a, In a (agents t) -> dget Nat.eqb x0s a = dget Nat.eqb m a). { intros a I. rewrite TB. destruct (in_dec _ _ _); [reflexivity|contradiction]. }
  assert (SPLIT : forall a, In a (t_nodes t) -> In a (agents t) \/ t_server t = Some a).
  { intros a I. unfold agents, is_server. destruct (t_server t) as [s|] eqn:ES.
    - destruct (Nat.eq_dec a s) as [->|NE]; [auto|]. left. apply filter_In. split; [exact I|]. destruct (Nat.eqb_spec a s); [contradiction|reflexivity].
    - left. apply filter_In. split; [exact I|]. reflexivity. }
  split; [intros _|tauto]. unfold finish. destruct (t_server t) as [sv|] eqn:ES.
  - set (sval := match dget Nat.eqb m sv with Some v => v | None => client_mean (map (entry x0s) (agents t)) end).
    assert (NS : forall a, In a (agents t) -> a <> sv). { intros a I ->. unfold agents in I. apply filter_In in I. unfold is_server in I. rewrite ES, Nat.eqb_refl in I. destruct I. discriminate. }
    assert (DG : forall a, dget Nat.eqb (dset Nat.eqb x0s sv sval) a = if Nat.eqb a sv then Some sval else dget Nat.eqb x0s a) by (intro; apply (dget_dset _ _ Nat.eqb Nat.eqb_spec)).
    destruct (normalise_spec (t_nodes t) (dset Nat.eqb x0s sv sval)) as (r & -> & M & V).
    + intros a I. rewrite DG. destruct (Nat.eqb_spec a sv); [eauto|]. destruct (SPLIT a I) as [J|[= ->]]; [|congruence]. rewrite X0 by exact J. destruct (TA a J); eauto.
    + exists r. split; [reflexivity|]. split; [exact M|]. intros a v I. assert (IN : In a (t_nodes t)) by (rewrite <- M; change a with (fst (a, v)); now apply in_map).
      apply V in I. rewrite DG in I. destruct (Nat.eqb_spec a sv) as [->|NE].
      * injection I as <-. unfold sval. destruct (dget Nat.eqb m sv) as [u|] eqn:EM; [left; now apply GM|]. right.
        split; [intros u G; apply GM in G; congruence|]. split; [exact ES|]. exists (map (entry x0s) (agents t)). split.
        { assert (Y : forall l, (forall a, In a l -> In a (agents t)) -> Forall2 (gives d) l (map (entry x0s) l)); [|apply Y; auto].
          induction l as [|a l IH]; intro H; cbn [map]; constructor; [|apply IH; intros; apply H; now right].
          apply GM. unfold entry. assert (J : In a (agents t)) by (apply H; now left). rewrite X0 by exact J. destruct (TA a J) as (w & ->). reflexivity. }
        split; [intros c cs' ->; reflexivity|]. intro i. unfold client_mean, mean. cbn [ar_data]. rewrite !map_length. unfold vscal, Rdiv. rewrite Rmult_comm. f_equal.
        generalize (map (entry x0s) (agents t)). intro ys. unfold vsum, rsum.
        assert (X : forall ys v r, v i = r -> fold_left vadd (map ar_data ys) v i = fold_left Rplus (map (fun c => ar_data c i) ys) r).
        { clear. induction ys as [|y ys IH]; intros v r E; cbn [fold_left map]; [exact E|]. apply IH. unfold vadd. now rewrite E. }
        apply X. reflexivity.
      * left. apply GM. destruct (SPLIT a IN) as [J|[= ->]]; [|congruence]. now rewrite <- X0.
  - destruct (normalise_spec (t_nodes t) x0s) as (r & -> & M & V).
    + intros a I. destruct (SPLIT a I) as [J|[=]]. rewrite X0 by exact J. auto.
    + exists r. split; [reflexivity|]. split; [exact M|]. intros a v I. assert (IN : In a (t_nodes t)) by (rewrite <- M; change a with (fst (a, v)); now apply in_map).
      apply V in I. destruct (SPLIT a IN) as [J|[=]]. left. apply GM. now rewrite <- X0.
Qed.

(** The states have the shapes the agents' costs expect, when the keys are
    agents of this network (or copies of them). *)
Theorem C67_shapes t cs d r : wf_topo t -> agents t <> [] ->
  (forall id s v, In (KeyAgent id s, v) d -> In id (t_nodes t) -> s = cs id) ->
  (forall a sv, In a (agents t) -> t_server t = Some sv -> cs sv = cs a) ->
  initial_states t cs (X0Dict d) = Some (IOk r) -> forall a v, In (a, v) r -> ar_shape v = cs a.
Proof.
  intros WF NE KS FS E a v I. destruct (C67_dictionary t cs d WF) as (C1 & C2).
  assert (OK : proper d /\ forall a, In a (agents t) -> exists v, gives d a v).
  { pose proof (by_id_spec d []) as BI. unfold initial_states in E. destruct (by_id d []) as [m|e]; [|injection E as ->; destruct BI as (_ & [|]); discriminate].
    destruct BI as (P & HM). split; [exact P|]. pose proof (take_spec (agents t) m []) as TS. destruct (take _ _ _) as [x0s|]; [|discriminate].
    intros b J. destruct (proj1 TS b J) as (u & EU). exists u. rewrite HM in EU. cbn [dget] in EU. pose proof (last_of_spec d b None) as L. rewrite EU in L. destruct L as [G|(_ & [=])]. exact G. }
  destruct (C1 OK) as (r' & E' & M & V). rewrite E in E'. injection E' as <-.
  assert (IN : In a (t_nodes t)) by (rewrite <- M; change a with (fst (a, v)); now apply in_map).
  assert (GS : forall b u, In b (t_nodes t) -> gives d b u -> ar_shape u = cs b).
  { intros b u J (d1 & s & d2 & -> & _). assert (K : In (KeyAgent b s, u) (d1 ++ (KeyAgent b s, u) :: d2)) by (apply in_app_iff; right; now left).
    rewrite <- (KS b s u K J). destruct OK as (P & _). unfold proper in P. rewrite Forall_forall in P. destruct (P _ K) as (id & EK). cbn in EK. congruence. }
  destruct (V a v I) as [G|(_ & S & vs & F & SH & _)]; [now apply GS|].
  destruct (agents t) as [|c l] eqn:EA; [contradiction|]. inversion F as [|? u ? us G F']. subst. rewrite (SH u us eq_refl).
  assert (CN : In c (t_nodes t)). { assert (J : In c (agents t)) by (rewrite EA; now left). unfold agents in J. now apply filter_In in J. }
  rewrite (GS c u CN G). symmetry. apply FS; [now left|exact S].
Qed.

(** Passing the result again gives the same states, as when an algorithm that
    stores it is run again. *)
Theorem C67_idempotent t cs r : wf_topo t -> map fst r = t_nodes t -> (forall a v, In (a, v) r -> ar_shape v = cs a) ->
  initial_states t cs (X0Dict (map (fun p => (KeyAgent (fst p) (cs (fst p)), snd p)) r)) = Some (IOk r).
Proof.
  intros WF M SH. set (d := map _ r).
  assert (ND : NoDup (map fst r)) by (rewrite M; apply WF).
  assert (G : forall a v, In (a, v) r -> gives d a v).
  { intros a v I. destruct (in_split _ _ I) as (r1 & r2 & ->). exists (map (fun p => (KeyAgent (fst p) (cs (fst p)), snd p)) r1), (cs a), (map (fun p => (KeyAgent (fst p) (cs (fst p)), snd p)) r2).
    split; [unfold d; now rewrite map_app|]. intros s' v' J. apply in_map_iff in J. destruct J as ((b & w) & [= -> _ _] & J).
    rewrite map_app in ND. cbn [map fst] in ND. apply NoDup_remove_2 in ND. apply ND. apply in_app_iff. right. change a with (fst (a, w)). now apply in_map. }
  destruct (C67_dictionary t cs d WF) as (C1 & _). destruct C1 as (r' & E & M' & V).
  - split.
    + unfold proper, d. rewrite Forall_map. apply Forall_forall. intros (a & v) I. exists a. cbn. f_equal. symmetry. now apply SH.
    + intros a J. unfold agents in J. apply filter_In in J. destruct J as (J & _). rewrite <- M in J. apply in_map_iff in J. destruct J as ((b & v) & <- & J). exists v. now apply G.
  - rewrite E. do 2 f_equal.
    assert (X : forall a v, In (a, v) r' -> In (a, v) r).
    { intros a v I. assert (IN : In a (map fst r)) by (rewrite M, <- M'; change a with (fst (a, v)); now apply in_map). apply in_map_iff in IN. destruct IN as ((b & w) & EB & J). cbn in EB. subst b.
      destruct (V a v I) as [G'|(N & _)]; [|exfalso; exact (N w (G a w J))]. now rewrite (gives_unique d a v w G' (G a w J)). }
    assert (EM : map fst r' = map fst r) by congruence. clear - ND X EM. revert r' EM X.
    induction r as [|(a & v) r IH]; intros [|(a' & v') r'] EM X; cbn in EM; try discriminate; [reflexivity|]. injection EM as -> EM. cbn [map fst] in ND. inversion ND as [|? ? N1 N2]. subst.
    assert (V' : v' = v). { destruct (X a v' (or_introl eq_refl)) as [[= ->]|I]; [reflexivity|]. exfalso. apply N1. change a with (fst (a, v')). now apply in_map. }
    subst v'. f_equal. apply IH; [exact N2|exact EM|]. intros b w I. destruct (X b w (or_intror I)) as [[= <- <-]|J]; [|exact J].
    exfalso. apply N1. rewrite <- EM. change a with (fst (a, v)). now apply in_map.
Qed.

(** Instance: two clients starting at 1 and 3, server 2 not given; the entry
    for agent 7 of no network is ignored. *)
Definition star2 : topo := mkTopo [0; 1; 2]%nat (fun a => if Nat.eqb a 2 then [0; 1]%nat else if Nat.leb a 1 then [2]%nat else []) (Some 2%nat) 1.
Lemma star2_wf : wf_topo star2.
Proof.
  split; [repeat constructor; cbn; intuition discriminate|]. split; [|split].
  - intros a b. cbn. destruct a as [|[|[|a]]]; cbn; intuition subst; cbn; auto.
  - intro a. destruct a as [|[|[|a]]]; cbn; repeat constructor; cbn; intuition discriminate.
  - split; [cbn; auto|]. intros a b. cbn. destruct a as [|[|[|a]]]; cbn; intuition (subst; try discriminate; auto); try (destruct H0; congruence).
Qed.
Definition at1 (x : R) : arr := mkArr [1%nat] (fun _ => x).
Example C67_case : exists r v, initial_states star2 (fun _ => [1%nat]) (X0Dict [(KeyAgent 0%nat [1%nat], at1 1); (KeyAgent 7%nat [1%nat], at1 9); (KeyAgent 1%nat [1%nat], at1 3)]) = Some (IOk r) /\
  r = [(0%nat, at1 1); (1%nat, at1 3); (2%nat, v)] /\ ar_shape v = [1%nat] /\ ar_data v 0%nat = 2.
Proof.
  eexists. eexists. split; [cbv - [Rplus Rmult Rminus Ropp Rdiv Rinv IZR vscal vsum INR]; reflexivity|]. split; [unfold at1; reflexivity|]. split; [reflexivity|].
  cbn [ar_data]. unfold vscal. cbv - [Rplus Rmult Rminus Ropp Rdiv Rinv IZR]. lra.
Qed.

Print Assumptions C67_none.
Print Assumptions C67_array.
Print Assumptions C67_other.
Print Assumptions C67_dictionary.
Print Assumptions C67_shapes.
Print Assumptions C67_idempotent.
