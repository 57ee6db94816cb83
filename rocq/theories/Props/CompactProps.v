(** C44: what is loaded is what was saved. *)
From Coq Require Import List Bool Arith ZArith String Lia Permutation.
From Verif.Model Require Import PyDict Checkpoint Compact.
From Verif.Proofs Require Import PyDictProofs CheckpointProofs.
From Verif.Props Require Import CheckpointProps.
Import ListNotations.
Open Scope nat_scope.

(** ---- vocabulary ---- *)
Section S.
  Context {X : Type}.
  (** the agents a value is keyed by, if it is a dictionary keyed by agents only *)
  Definition keyed_by (v : pv X) (ags : list nat) : Prop := exists l, v = PDict l /\ map fst l = map KAgent ags /\ ags <> [].
  (** no attribute of the algorithm itself looks like a stored one: a dictionary
      that maps the marker string to [True] and "data" to a dictionary *)
  Definition not_marked (v : pv X) : Prop := forall l d, v = PDict l -> In (KStr "__agent_hash_keyed__", PTrue) l -> ~ In (KStr "data", PDict d) l.
  (** the agent-keyed attributes have distinct keys (being dictionaries), all of
      them agents of the network *)
  Definition in_network (nodes : list nat) (A : attrs X) : Prop :=
    forall n v ags, In (n, v) A -> keyed_by v ags -> NoDup ags /\ incl ags nodes.
End S.

Lemma key_eqb_spec x y : reflect (x = y) (key_eqb x y).
Proof.
  destruct x, y; cbn; try (constructor; congruence).
  - destruct (Nat.eqb_spec a a0); constructor; congruence.
  - destruct (Z.eqb_spec z z0); constructor; congruence.
  - destruct (String.eqb_spec s s0); constructor; congruence.
  - destruct (Nat.eqb_spec n n0); constructor; congruence.
Qed.
Section P.
  Context {X : Type}.
  Variable hash : nat -> Z.
  Lemma dset_new {K V} (eqb : K -> K -> bool) (SP : forall x y, reflect (x = y) (eqb x y)) (d : list (K * V)) k v : ~ In k (map fst d) -> dset eqb d k v = d ++ [(k, v)].
  Proof. induction d as [|(k', v') d IH]; cbn; intro NI; auto. destruct (SP k k'); [subst; tauto|]. rewrite IH; tauto. Qed.
  Lemma rekey_gen (ags : list nat) (vs : list (pv X)) : forall d, List.length ags = List.length vs -> NoDup (map fst d ++ map (fun a => KInt (hash a)) ags) ->
    fold_left (fun d p => dset key_eqb d (hash_key hash (fst p)) (snd p)) (combine (map KAgent ags) vs) d = d ++ combine (map (fun a => KInt (hash a)) ags) vs.
  Proof.
    revert vs. induction ags as [|a ags IH]; intros [|v vs] d L ND; cbn in L; try discriminate; cbn [map combine fold_left]; [now rewrite app_nil_r|]. cbn [fst snd hash_key].
    rewrite dset_new by (apply key_eqb_spec || (cbn in ND; apply NoDup_remove_2 in ND; intro I; apply ND, in_app_iff; auto)).
    rewrite IH; [now rewrite <- app_assoc|lia|]. rewrite map_app. cbn. rewrite <- app_assoc. exact ND.
  Qed.
  Lemma decode_gen tbl (ags : list nat) : (forall a, In a ags -> dget Z.eqb tbl (hash a) = Some a) -> forall (vs : list (pv X)) d, List.length ags = List.length vs -> NoDup (map fst d ++ map KAgent ags) ->
    decode tbl (combine (map (fun a => KInt (hash a)) ags) vs) d = Some (d ++ combine (map KAgent ags) vs).
  Proof.
    induction ags as [|a ags IH]; intros T [|v vs] d L ND; cbn in L; try discriminate; cbn [map combine decode]; [now rewrite app_nil_r|].
    rewrite T by now left. rewrite dset_new by (apply key_eqb_spec || (cbn in ND; apply NoDup_remove_2 in ND; intro I; apply ND, in_app_iff; auto)).
    rewrite IH; [now rewrite <- app_assoc|intros; apply T; now right|lia|]. rewrite map_app. cbn. rewrite <- app_assoc. exact ND.
  Qed.
  Lemma table (nodes : list nat) : (forall a b, In a nodes -> In b nodes -> hash a = hash b -> a = b) -> forall a, In a nodes -> dget Z.eqb (hash_to_agent hash nodes) (hash a) = Some a.
  Proof.
    unfold hash_to_agent. intro INJ.
    assert (G : forall l d, incl l nodes -> forall a, In a nodes -> (In a l \/ dget Z.eqb d (hash a) = Some a) ->
      dget Z.eqb (fold_left (fun d a => dset Z.eqb d (hash a) a) l d) (hash a) = Some a).
    { induction l as [|b l IH]; intros d I a Ha O; cbn [fold_left]; [destruct O as [[]|O]; auto|]. apply IH; [intros x Hx; apply I; now right|auto|].
      destruct (Nat.eq_dec b a) as [->|NE].
      - right. apply (dget_dset_eq _ _ Z.eqb Z.eqb_spec).
      - destruct O as [[O|O]|O]; [contradiction|auto|]. right. rewrite (dget_dset_neq _ _ Z.eqb Z.eqb_spec); auto. intro E. apply NE, INJ; auto. apply I. now left. }
    intros a Ha. apply G; [apply incl_refl|auto|auto].
  Qed.
  Lemma NoDup_map_inj {A B} (f : A -> B) l : (forall x y, In x l -> In y l -> f x = f y -> x = y) -> NoDup l -> NoDup (map f l).
  Proof.
    induction l as [|x l IH]; intros I ND; cbn; constructor; inversion ND; subst.
    - intro H. apply in_map_iff in H. destruct H as (y & E & Hy). assert (y = x) by (apply I; [now right|now left|auto]). now subst.
    - apply IH; [intros; apply I; auto; now right|auto].
  Qed.
  Lemma combine_fst_snd {A B} (l : list (A * B)) : combine (map fst l) (map snd l) = l. Proof. induction l as [|(a, b) l IH]; cbn; congruence. Qed.
  Lemma agent_dict_keyed (v : pv X) : agent_dict v = true <-> exists ags, keyed_by v ags.
  Proof.
    split.
    - destruct v as [|x|[|p l]]; cbn [agent_dict]; try discriminate. intro F. exists (map (fun q => match fst q with KAgent a => a | _ => 0 end) (p :: l)), (p :: l).
      split; [reflexivity|]. split; [|discriminate]. rewrite map_map. apply map_ext_in. intros q I. rewrite forallb_forall in F. specialize (F q I). destruct (fst q); cbn in F; congruence.
    - intros (ags & l & -> & E & NE). destruct l as [|p l]; [destruct ags; [congruence|discriminate]|]. cbn [agent_dict]. apply forallb_forall. intros q I.
      assert (In (fst q) (map KAgent ags)) as J by (rewrite <- E; now apply in_map). apply in_map_iff in J. destruct J as (a & <- & _). reflexivity.
  Qed.
  Lemma get_In {K V} (eqb : K -> K -> bool) (SP : forall x y, reflect (x = y) (eqb x y)) (d : list (K * V)) k v : dget eqb d k = Some v -> In (k, v) d.
  Proof. induction d as [|(k', v') d IH]; cbn; [discriminate|]. destruct (SP k k'); [intros [= ->]; left; congruence|auto]. Qed.
  Lemma value_trip nodes n (v : pv X) A : (forall a b, In a nodes -> In b nodes -> hash a = hash b -> a = b) -> in_network nodes A -> In (n, v) A -> not_marked v ->
    restore_value hash nodes (compact_value hash v) = Some v.
  Proof.
    intros INJ IN I NM. unfold compact_value. destruct v as [|x|l]; try reflexivity. destruct (agent_dict (PDict l)) eqn:AD.
    - apply agent_dict_keyed in AD. destruct AD as (ags & KB). destruct (IN n (PDict l) ags I KB) as (ND & INC). destruct KB as (l' & EQ & E & NE). injection EQ as <-.
      set (vs := map snd l). assert (L : l = combine (map KAgent ags) vs) by (rewrite <- E; symmetry; apply combine_fst_snd).
      assert (LE : List.length ags = List.length vs) by (unfold vs; rewrite map_length, <- (map_length fst), E, map_length; reflexivity).
      unfold restore_value, marked_data. cbn [dget marker data]. change (key_eqb marker marker) with true. change (key_eqb data marker) with false. change (key_eqb data data) with true. cbn [option_map].
      unfold rekey. rewrite L, rekey_gen; auto.
      + cbn [List.app]. rewrite decode_gen; auto.
        * intros a Ha. apply table; auto.
        * cbn. apply NoDup_map_inj; [congruence|auto].
      + cbn. apply NoDup_map_inj; [|auto]. intros x y Hx Hy Q. injection Q as Q. apply INJ; auto.
    - unfold restore_value. destruct (marked_data (PDict l)) as [d|] eqn:M; [|reflexivity]. exfalso. unfold marked_data in M.
      destruct (dget key_eqb l marker) as [[| |]|] eqn:G1; try discriminate. destruct (dget key_eqb l data) as [[| |d']|] eqn:G2; try discriminate. injection M as ->.
      apply (NM l d eq_refl); apply (get_In key_eqb key_eqb_spec); auto.
  Qed.
End P.

(** C44: loading initial algorithms with the network returns the attributes saved,
    agent-keyed mappings included (order of the entries too), if the hashes of
    the network's agents are distinct. *)
Theorem C44_initial_algorithms_round_trip : forall (X : Type) (hash : nat -> Z) nodes (A : attrs X),
  (forall a b, In a nodes -> In b nodes -> hash a = hash b -> a = b) -> in_network nodes A -> (forall n v, In (n, v) A -> not_marked v) ->
  load_alg hash (Some nodes) (fst (save_alg hash A)) = Some A.
Proof.
  intros X hash nodes A INJ IN NM. cbn [load_alg save_alg fst]. unfold compact.
  assert (G : forall B, incl B A -> restore hash nodes (map (fun p => (fst p, compact_value hash (snd p))) B) = Some B).
  { induction B as [|(n, v) B IH]; intro I; cbn [map restore fst snd]; [reflexivity|]. rewrite (value_trip hash nodes n v A INJ IN); [|apply I; now left|eapply NM; apply I; now left].
    rewrite IH; [reflexivity|]. intros x Hx. apply I. now right. }
  apply G, incl_refl.
Qed.
(** ... and saving leaves the algorithm in memory as it was. *)
Theorem C44_saving_preserves_algorithm : forall (X : Type) (hash : nat -> Z) (A : attrs X), NoDup (map fst A) -> snd (save_alg hash A) = A.
Proof.
  intros X hash A ND. cbn [save_alg snd]. unfold compact, originals.
  assert (G : forall B P : attrs X, NoDup (map fst (P ++ B)) -> fold_left (fun d p => dset String.eqb d (fst p) (snd p)) (filter (fun p => agent_dict (snd p)) B) (P ++ map (fun p => (fst p, compact_value hash (snd p))) B) = P ++ B).
  { induction B as [|(n, v) B IH]; intros P NP; cbn [filter map]; [reflexivity|]. cbn [fst snd].
    assert (S : forall c, dset String.eqb (P ++ (n, c) :: map (fun p => (fst p, compact_value hash (snd p))) B) n v = P ++ (n, v) :: map (fun p => (fst p, compact_value hash (snd p))) B).
    { intro c. assert (NI : ~ In n (map fst P)). { rewrite map_app in NP. apply NoDup_remove_2 in NP. intro I. apply NP, in_app_iff. auto. }
      clear - NI. induction P as [|(n', v') P IH]; cbn; [now rewrite String.eqb_refl|]. destruct (String.eqb_spec n n'); [subst; cbn in NI; tauto|]. rewrite IH; auto. cbn in NI; tauto. }
    specialize (IH (P ++ [(n, v)])). rewrite <- !app_assoc in IH. cbn [List.app] in IH.
    destruct (agent_dict v) eqn:AD.
    - cbn [fold_left fst snd]. rewrite S. apply IH. exact NP.
    - assert (CV : compact_value hash v = v) by (destruct v as [|x|l]; auto; unfold compact_value; now rewrite AD). rewrite CV. apply IH. exact NP. }
  exact (G A [] ND).
Qed.
(** C44: a checkpoint just saved is the one loaded, with its iteration, unless
    [keep_n_checkpoints] newer files are in the directory. *)
Theorem C44_checkpoint_round_trip : forall D keep k (d : D) s x,
  NoDup (dkeys (d_ck s)) -> already_saved k s = Some false -> save keep k d s = Some x ->
  List.length (filter (fun i => k <? i) (dkeys (d_ck s))) < keep -> load (apply_all x s) = LSome k d.
Proof.
  intros D keep k d s x ND AS SV LT. pose proof (save_eq keep k d s x AS SV) as EX.
  destruct (C43_keeps_newest D keep k d s x ND AS SV) as (NW & F). cbn zeta in *.
  assert (I : In k (dkeys (d_ck (apply_all x s)))).
  { apply NW. split; [now left|]. eapply Nat.le_lt_trans; [|exact LT].
    assert (E : forall l, List.length (filter (fun i => k <? i) (nodup Nat.eq_dec l)) <= List.length (filter (fun i => k <? i) l)).
    { induction l as [|y l IH]; [auto|]. cbn [nodup filter]. destruct (in_dec Nat.eq_dec y l); cbn [filter]; destruct (k <? y); cbn [List.length]; lia. }
    eapply Nat.le_trans; [apply E|]. cbn [filter]. rewrite Nat.ltb_irrefl. apply le_n. }
  apply key_get in I. destruct (dget Nat.eqb (d_ck (apply_all x s)) k) as [f|] eqn:G; [|congruence]. pose proof (F k f G) as Q. rewrite Nat.eqb_refl in Q. subst f.
  assert (PR : d_prog (apply_all x s) = Some (Full k)).
  { rewrite EX, apply_app. set (s1 := apply_all [TruncCk k; WriteCk k d; TruncProg; WriteProg k] s). change (Some (Full k)) with (d_prog s1).
    generalize (skipn keep (sort_desc (keys (written k d s)))). clear. intro l. unfold cleanup in *. generalize s1. 
    induction l as [|y l IH]; intro s0; [reflexivity|]. cbn [map]. change (apply_all (UnlinkCk y :: map UnlinkCk l) s0) with (apply_all (map UnlinkCk l) (apply s0 (UnlinkCk y))). rewrite IH. reflexivity. }
  unfold load. rewrite PR, G. reflexivity.
Qed.
(** ---- non-vacuity ---- *)
Definition c_hash (a : nat) : Z := (Z.of_nat a * 7 - 3)%Z.
Definition c_attrs : attrs nat :=
  [("step_size"%string, PAtom 5); ("x0"%string, PDict [(KAgent 2, PAtom 20); (KAgent 0, PDict [(KAgent 1, PAtom 9)])]); ("opts"%string, PDict [(KStr "a", PTrue); (KAgent 1, PAtom 1)]); ("none"%string, PDict [])].
Example C44_nonvacuous : in_network [0; 1; 2] c_attrs /\ (forall n v, In (n, v) c_attrs -> not_marked v) /\
  fst (save_alg c_hash c_attrs) <> c_attrs /\ load_alg c_hash (Some [0; 1; 2]) (fst (save_alg c_hash c_attrs)) = Some c_attrs.
Proof.
  split; [|split; [|split; [discriminate|reflexivity]]].
  - intros n v ags I (l & -> & E & NE). cbn in I. destruct I as [I|[I|[I|[I|[]]]]]; injection I; intros; subst; try discriminate.
    + destruct ags as [|a [|b [|c ags]]]; cbn in E; try discriminate. injection E as <- <-. split; [repeat constructor; cbn; intuition discriminate|]. intros x [<-|[<-|[]]]; cbn; auto.
    + destruct ags as [|a ags]; cbn in E; discriminate.
    + destruct ags; [congruence|discriminate].
  - intros n v I l d -> M D. cbn in I. destruct I as [I|[I|[I|[I|[]]]]]; injection I; intros; subst; try discriminate; cbn in M; intuition discriminate.
Qed.
Example C44_checkpoint_nonvacuous : exists x, save 2 5 7 (mkDir [(3, Torn); (9, Full 1); (1, Full 2)] (Some (Full 1)) None) = Some x /\
  load (apply_all x (mkDir [(3, Torn); (9, Full 1); (1, Full 2)] (Some (Full 1)) None)) = LSome 5 7.
Proof. eexists. split; reflexivity. Qed.
(** ---- what does not hold ---- *)
(** Agents with equal hashes: entries are lost without an error. *)
Theorem C44_hash_collision_refuted : exists (hash : nat -> Z) nodes (A A' : attrs nat),
  in_network nodes A /\ load_alg hash (Some nodes) (fst (save_alg hash A)) = Some A' /\ A' <> A.
Proof.
  exists (fun _ => 0%Z), [0; 1], [("x0"%string, PDict [(KAgent 0, PAtom 1); (KAgent 1, PAtom 2)])]. eexists. split; [|split; [reflexivity|discriminate]].
  intros n v ags [I|[]] (l & -> & E & _). injection I as <- <-. destruct ags as [|a [|b [|c ags]]]; cbn in E; try discriminate. injection E as <- <-.
  split; [repeat constructor; cbn; intuition discriminate|]. intros x [<-|[<-|[]]]; cbn; auto.
Qed.
(** An attribute keyed by an agent that is not in the network: a benchmark
    with checkpoints can be started, but never resumed. *)
Theorem C44_foreign_agent_refuted : exists (hash : nat -> Z) nodes (A : attrs nat),
  (forall a b, hash a = hash b -> a = b) /\ snd (save_alg hash A) = A /\ load_alg hash (Some nodes) (fst (save_alg hash A)) = None.
Proof. exists Z.of_nat, [0; 1], [("x0"%string, PDict [(KAgent 0, PAtom 1); (KAgent 7, PAtom 2)])]. split; [intros; lia|]. split; reflexivity. Qed.
(** Without the network ([load_benchmark_result]), agent-keyed mappings come back
    keyed by hashes. *)
Theorem C44_result_algorithms_refuted : exists (hash : nat -> Z) (A A' : attrs nat),
  load_alg hash None (fst (save_alg hash A)) = Some A' /\ A' <> A.
Proof. exists Z.of_nat, [("x0"%string, PDict [(KAgent 0, PAtom 1)])]. eexists. split; [reflexivity|discriminate]. Qed.

Print Assumptions C44_initial_algorithms_round_trip.
Print Assumptions C44_saving_preserves_algorithm.
Print Assumptions C44_checkpoint_round_trip.
