(** C71: what display_metrics selects; C72: the points of the plots; C73: the
    computational-cost axis; C74: the table and the layout of the plots. *)
From Coq Require Import List Bool Arith ZArith QArith Qcanon Reals String Lia Lra.
From Verif.Model Require Import PyDict History Messages Network Counting Vec Metrics Display.
From Verif.Spec Require Import PredictSpec DisplaySpec.
From Verif.Proofs Require Import EmpiricalProofs DisplayProofs.
Import ListNotations.
Local Open Scope R_scope.

(** ** C71: selection *)
Section Select.
  Variables (r : mresult) (tables plots algs : option (list string)).
  (** a result with everything the specification says about it *)
  Definition table_row_wanted (w : trow) : Prop :=
    has_table_metric r (t_metric w) /\ requested tables (t_metric w) /\ has_algorithm r (t_alg w) /\ requested algs (t_alg w).
  Definition plot_row_wanted (w : prow) : Prop :=
    has_plot_metric r (p_metric w) /\ requested plots (p_metric w) /\ has_algorithm r (p_alg w) /\ requested algs (p_alg w).
End Select.

(** what happens to one of the two halves of a result *)
Lemma rows_selected {Row} (av aa : list string) (req algs : option (list string)) (metric alg : Row -> string) rows :
  kept (fun w => In (metric w) av /\ requested req (metric w) /\ In (alg w) aa /\ requested algs (alg w)) rows
    (filter (fun w => smem (alg w) (filter_names aa algs)) (filter (fun w => smem (metric w) (filter_names av req)) rows)).
Proof.
  rewrite filter_filter. apply kept_filter. intros w _. rewrite andb_true_iff, !filter_names_mem. tauto.
Qed.
Lemma raw_selected req algs (raw : list (pmetric * list string)) : raw <> [] ->
  exists raw', drop_algorithms algs (drop_metrics (filter_names (names_of (Some raw)) req) (Some raw)) = raw' /\
    (filter_names (names_of (Some raw)) req <> [] -> exists l, raw' = Some l /\ kept (fun m => requested req (pm_name m)) (map fst raw) (map fst l)).
Proof.
  intro NE. eexists. split; [reflexivity|]. intro NF. unfold drop_metrics. destruct raw as [|p0 raw0]; [congruence|]. clear NE. set (raw := p0 :: raw0) in *.
  assert (K : kept (fun m => requested req (pm_name m)) (map fst raw) (map fst (filter (fun p => smem (pm_name (fst p)) (filter_names (names_of (Some raw)) req)) raw))).
  { apply kept_map, kept_filter. intros p I. rewrite filter_names_mem. cbn [names_of]. split; [tauto|]. intro Q. split; auto. apply (in_map (fun p => pm_name (fst p))), I. }
  unfold drop_algorithms. destruct (filter (fun p => smem (pm_name (fst p)) (filter_names (names_of (Some raw)) req)) raw) as [|q l] eqn:E.
  - exfalso. apply NF. destruct (filter_names (names_of (Some raw)) req) as [|s l'] eqn:E'; auto. exfalso.
    assert (I : In s (s :: l')) by (left; auto). rewrite <- E' in I. apply filter_names_In in I. destruct I as (I & Q). cbn [names_of] in I.
    apply in_map_iff in I. destruct I as (p & <- & I). assert (X : In p []); [|destruct X]. rewrite <- E. apply filter_In. split; auto.
    rewrite <- E'. apply filter_names_mem. split; auto. apply (in_map (fun p => pm_name (fst p))), I.
  - eexists. split; [reflexivity|]. rewrite map_map. cbn [fst]. exact K.
Qed.

Lemma filter_names_nil o : filter_names [] o = [].
Proof. destruct o as [l|]; cbn; auto. induction l; cbn; auto. Qed.

(** What is displayed: tables (plots) iff an available table (plot) metric is
    requested, and then, in the original order, exactly the aggregated rows
    whose metric and algorithm are available and requested; without request
    everything; the result holds the requested metrics and network views. *)
Theorem C71_displayed : forall r tables plots algs r' bt bp,
  display_metrics r tables plots algs = Some (r', bt, bp) ->
  (bt = true <-> exists m, has_table_metric r m /\ requested tables m) /\
  (bp = true <-> exists m, has_plot_metric r m /\ requested plots m) /\
  (bt = true -> (forall rows, r_table r = Some rows -> exists rows', r_table r' = Some rows' /\ kept (table_row_wanted r tables algs) rows rows') /\
     (forall raw, r_raw_table r = Some raw -> exists raw', r_raw_table r' = Some raw' /\ kept (fun m => requested tables (pm_name m)) (map fst raw) (map fst raw'))) /\
  (bp = true -> (forall rows, r_plot r = Some rows -> exists rows', r_plot r' = Some rows' /\ kept (plot_row_wanted r plots algs) rows rows') /\
     (forall raw, r_raw_plot r = Some raw -> exists raw', r_raw_plot r' = Some raw' /\ kept (fun m => requested plots (pm_name m)) (map fst raw) (map fst raw'))) /\
  (forall v, r_views r = Some v -> exists v', r_views r' = Some v' /\ kept (fun p => requested algs (fst p)) v v').
Proof.
  intros r tables plots algs r' bt bp. unfold display_metrics.
  set (sa := filter_names (r_algorithms r) algs). set (st := filter_names (r_table_metrics r) tables). set (sp := filter_names (r_plot_metrics r) plots).
  destruct (is_nil sa) eqn:NA; [discriminate|]. destruct (is_nil st && is_nil sp); [discriminate|]. intro E. injection E as <- <- <-. cbn [r_views r_raw_table r_raw_plot r_table r_plot].
  assert (T : forall l : list string, negb (is_nil l) = true <-> exists s, In s l) by (intro l; rewrite negb_true_iff; apply is_nil_false).
  split; [rewrite T; unfold st; setoid_rewrite filter_names_In; reflexivity|]. split; [rewrite T; unfold sp; setoid_rewrite filter_names_In; reflexivity|].
  split; [|split].
  - intro B. destruct (is_nil st) eqn:NS; [discriminate|]. split.
    + intros rows E. rewrite E. cbn [drop_rows]. eexists. split; [reflexivity|]. unfold sa, st, table_row_wanted, has_table_metric, has_algorithm. apply rows_selected.
    + intros raw E. unfold st, r_table_metrics in *. rewrite E in *. destruct raw as [|p raw]; [cbn [names_of map] in NS; rewrite filter_names_nil in NS; discriminate|].
      destruct (raw_selected tables sa (p :: raw)) as (raw' & E' & K); [discriminate|]. destruct K as (l & -> & K); [intro X; rewrite X in NS; discriminate|].
      exists l. split; auto.
  - intro B. destruct (is_nil sp) eqn:NS; [discriminate|]. split.
    + intros rows E. rewrite E. cbn [drop_rows]. eexists. split; [reflexivity|]. unfold sa, sp, plot_row_wanted, has_plot_metric, has_algorithm. apply rows_selected.
    + intros raw E. unfold sp, r_plot_metrics in *. rewrite E in *. destruct raw as [|p raw]; [cbn [names_of map] in NS; rewrite filter_names_nil in NS; discriminate|].
      destruct (raw_selected plots sa (p :: raw)) as (raw' & E' & K); [discriminate|]. destruct K as (l & -> & K); [intro X; rewrite X in NS; discriminate|].
      exists l. split; auto.
  - intros v E. rewrite E. destruct v as [|p v].
    + exfalso. unfold sa, r_algorithms in NA. rewrite E in NA. cbn [map] in NA. rewrite filter_names_nil in NA. discriminate.
    + eexists. split; [reflexivity|]. apply kept_filter. intros q I. unfold sa. rewrite filter_names_mem. split; [tauto|]. intro Q. split; auto.
      unfold r_algorithms. rewrite E. apply in_map, I.
Qed.

(** For a consistent result: exactly the rows asked for; asking for nothing in
    particular displays everything. *)
Theorem C71_consistent : forall r tables plots algs r' bt bp, consistent r ->
  display_metrics r tables plots algs = Some (r', bt, bp) ->
  (bt = true -> forall rows, r_table r = Some rows -> exists rows', r_table r' = Some rows' /\
     kept (fun w => requested tables (t_metric w) /\ requested algs (t_alg w)) rows rows' /\ (tables = None -> algs = None -> rows' = rows)) /\
  (bp = true -> forall rows, r_plot r = Some rows -> exists rows', r_plot r' = Some rows' /\
     kept (fun w => requested plots (p_metric w) /\ requested algs (p_alg w)) rows rows' /\ (plots = None -> algs = None -> rows' = rows)).
Proof.
  intros r tables plots algs r' bt bp (CT & CP) E. destruct (C71_displayed _ _ _ _ _ _ _ E) as (_ & _ & T & P & _).
  assert (X : forall A (Q Q' : A -> Prop) l l', (forall a, In a l -> Q a <-> Q' a) -> kept Q l l' -> kept Q' l l').
  { intros A Q Q' l l' H K. induction K; constructor; auto; try (apply IHK; intros; apply H; right; auto); assert (X := H a (or_introl eq_refl)); tauto. }
  split.
  - intros B rows Er. destruct (proj1 (T B) rows Er) as (rows' & Er' & K). exists rows'. split; auto.
    assert (K' : kept (fun w => requested tables (t_metric w) /\ requested algs (t_alg w)) rows rows').
    { refine (X _ _ _ _ _ _ K). intros w I. unfold table_row_wanted. assert (C := CT _ _ Er I). tauto. }
    split; auto. intros -> ->. apply (kept_all _ _ _ K'). cbn. auto.
  - intros B rows Er. destruct (proj1 (P B) rows Er) as (rows' & Er' & K). exists rows'. split; auto.
    assert (K' : kept (fun w => requested plots (p_metric w) /\ requested algs (p_alg w)) rows rows').
    { refine (X _ _ _ _ _ _ K). intros w I. unfold plot_row_wanted. assert (C := CP _ _ Er I). tauto. }
    split; auto. intros -> ->. apply (kept_all _ _ _ K'). cbn. auto.
Qed.

(** Nothing is displayed exactly if no available algorithm or no available
    metric is requested. *)
Theorem C71_stops : forall r tables plots algs,
  display_metrics r tables plots algs = None <->
  (forall a, has_algorithm r a -> ~ requested algs a) \/
  ((forall m, has_table_metric r m -> ~ requested tables m) /\ (forall m, has_plot_metric r m -> ~ requested plots m)).
Proof.
  intros r tables plots algs. unfold display_metrics.
  assert (N : forall av o, is_nil (filter_names av o) = true <-> forall s, In s av -> ~ requested o s).
  { intros av o. split.
    - intros H s I Q. apply is_nil_iff in H. assert (X : In s (filter_names av o)) by now apply filter_names_In. rewrite H in X. destruct X.
    - intro H. destruct (is_nil (filter_names av o)) eqn:E; auto. apply is_nil_false in E. destruct E as (s & I). apply filter_names_In in I. destruct (H s); tauto. }
  unfold has_algorithm, has_table_metric, has_plot_metric. rewrite <- !N.
  destruct (is_nil (filter_names (r_algorithms r) algs)); [tauto|].
  destruct (is_nil (filter_names (r_table_metrics r) tables)), (is_nil (filter_names (r_plot_metrics r) plots)); cbn [andb]; split; intuition congruence.
Qed.

(** Order, repetition and unknown names in a request do not matter. *)
Theorem C71_request_is_a_set : forall r tables tables' plots plots' algs algs',
  (forall m, has_table_metric r m -> requested tables m <-> requested tables' m) ->
  (forall m, has_plot_metric r m -> requested plots m <-> requested plots' m) ->
  (forall a, has_algorithm r a -> requested algs a <-> requested algs' a) ->
  display_metrics r tables plots algs = display_metrics r tables' plots' algs'.
Proof.
  intros r tables tables' plots plots' algs algs' HT HP HA.
  assert (M : forall av o o', (forall s, In s av -> requested o s <-> requested o' s) -> forall s, smem s (filter_names av o) = smem s (filter_names av o')).
  { intros av o o' H s. destruct (smem s (filter_names av o)) eqn:E1, (smem s (filter_names av o')) eqn:E2; auto.
    - apply filter_names_mem in E1. rewrite <- E2. symmetry. apply filter_names_mem. destruct E1. split; auto. now apply H.
    - apply filter_names_mem in E2. rewrite <- E1. apply filter_names_mem. destruct E2. split; auto. now apply H. }
  assert (N : forall av o o', (forall s, In s av -> requested o s <-> requested o' s) -> is_nil (filter_names av o) = is_nil (filter_names av o')).
  { intros av o o' H. destruct (is_nil (filter_names av o)) eqn:E1, (is_nil (filter_names av o')) eqn:E2; auto.
    - apply is_nil_false in E2. destruct E2 as (s & I). apply smem_In in I. rewrite <- (M av o o' H) in I. apply smem_In in I. apply is_nil_iff in E1. rewrite E1 in I. destruct I.
    - apply is_nil_false in E1. destruct E1 as (s & I). apply smem_In in I. rewrite (M av o o' H) in I. apply smem_In in I. apply is_nil_iff in E2. rewrite E2 in I. destruct I. }
  unfold display_metrics. rewrite <- (N _ _ _ HT), <- (N _ _ _ HP), <- (N _ _ _ HA).
  assert (R : forall Row (col : Row -> string) s s' o, (forall x, smem x s = smem x s') -> drop_rows s col o = drop_rows s' col o).
  { intros Row col s s' o H. destruct o as [l|]; cbn; auto. f_equal. apply filter_ext. intro. apply H. }
  assert (D : forall s s' o, (forall x, smem x s = smem x s') -> drop_metrics s o = drop_metrics s' o).
  { intros s s' o H. destruct o as [[|p l]|]; auto. unfold drop_metrics. f_equal. apply filter_ext. intro. apply H. }
  assert (A : forall s s' o, (forall x, smem x s = smem x s') -> drop_algorithms s o = drop_algorithms s' o).
  { intros s s' o H. destruct o as [[|p l]|]; auto. unfold drop_algorithms. f_equal. apply map_ext. intro q. f_equal. apply filter_ext. intro. apply H. }
  rewrite (D _ _ (r_raw_table r) (M _ _ _ HT)), (D _ _ (r_raw_plot r) (M _ _ _ HP)), !(R _ _ _ _ _ (M _ _ _ HT)), !(R _ _ _ _ _ (M _ _ _ HP)).
  rewrite !(A _ _ _ (M _ _ _ HA)), !(R _ _ _ _ _ (M _ _ _ HA)).
  assert (V : forall v : list (string * list nview), filter (fun p => smem (fst p) (filter_names (r_algorithms r) algs)) v = filter (fun p => smem (fst p) (filter_names (r_algorithms r) algs')) v)
    by (intro v; apply filter_ext; intro; apply M, HA).
  destruct (is_nil (filter_names (r_algorithms r) algs)); auto. destruct (is_nil _ && is_nil _); auto.
  destruct (r_views r) as [[|p v]|]; auto. now rewrite V.
Qed.

(** A result with two algorithms and two metrics: of the three rows the one
    asked for is displayed; the name "X" is unknown. *)
Definition mA := mkPM "regret" false true false.
Definition mB := mkPM "calls" false false true.
Definition res2 : mresult := mkRes None
  (Some [(mA, ["P"; "Q"]%string); (mB, ["P"; "Q"]%string)]) None
  (Some [mkT "regret" "P" "mean" (Fin 1) (Fin 0); mkT "regret" "Q" "mean" (Fin 2) (Fin 0); mkT "calls" "Q" "mean" (Fin 3) (Fin 0)]) None.
Example C71_case : consistent res2 /\
  display_metrics res2 (Some ["X"; "regret"; "regret"]%string) None (Some ["Q"]%string) =
  Some (mkRes None (Some [(mA, ["Q"]%string)]) None (Some [mkT "regret" "Q" "mean" (Fin 2) (Fin 0)]) None, true, false).
Proof.
  split; [|reflexivity]. split; intros rows w E I; cbn in E; [|discriminate]. injection E as <-.
  cbn in I. unfold has_table_metric, has_algorithm. repeat destruct I as [<-|I]; cbn; tauto.
Qed.
Example C71_case_stops : display_metrics res2 (Some ["X"]%string) None None = None /\ display_metrics res2 None None (Some []) = None.
Proof. split; reflexivity. Qed.

(** ** C72: plots *)
Definition plain_axis (r : mresult) (cost : option ccost) (compare : bool) : Prop := cost = None \/ r_views r = None \/ compare = true.

Lemma to_point_drawn v cost scale compare ylog sh w :
  drawn_row ylog w (to_point v cost scale compare (shiftw sh (liftw ylog (to_frow w)))).
Proof.
  assert (D : forall x, drawn_as ylog x (if ylog then mask min_y x else x)) by (intro x; destruct ylog; [apply mask_drawn|reflexivity]).
  unfold drawn_row, to_point, shiftw, liftw, maskw, to_frow. destruct cost, v; cbn [pt_mean pt_min pt_max]; destruct ylog; cbn; repeat split; apply D.
Qed.
Lemma to_point_iter r cost scale compare w : plain_axis r cost compare -> pt_iter (to_point (r_views r) cost scale compare w) = Some (f_iter w).
Proof. intros [-> |[-> | ->]]; unfold to_point; auto; destruct cost; auto. destruct (r_views r); auto. Qed.
Lemma filter_alg_prepared a sh ylog f :
  filter (fun w => String.eqb (f_alg w) a) (map (fun w => shiftw sh (liftw ylog w)) f) = map (fun w => shiftw sh (liftw ylog w)) (filter (fun w => String.eqb (f_alg w) a) f).
Proof. rewrite filter_map. f_equal. apply filter_ext. intro w. unfold liftw. now destruct ylog. Qed.
Lemma prepared_algs m rows a : In a (map f_alg (prepare m rows)) <-> exists w, In w rows /\ shown rows (pm_name m) a w.
Proof.
  destruct (prepare_eq m rows) as (sh & _ & ->). rewrite map_map.
  assert (E : forall w, f_alg (shiftw sh (liftw (pm_ylog m) w)) = f_alg w) by (intro w; unfold liftw; now destruct (pm_ylog m)).
  rewrite (map_ext _ _ E), in_map_iff. split.
  - intros (v & <- & I). apply In_truncated in I. destruct I as (w & -> & I & S). exists w. split; auto.
  - intros (w & I & S). exists (to_frow w). split; [apply S|]. apply In_truncated. exists w. assert (A : p_alg w = a) by apply S. rewrite A. auto.
Qed.
Lemma In_curves r cost scale compare name a pts : In (name, a, pts) (curves r cost scale compare) <->
  exists raw rows m0 algs0 rest m, r_raw_plot r = Some raw /\ r_plot r = Some rows /\ raw = (m0, algs0) :: rest /\
    In a (map f_alg (prepare m0 rows)) /\ In m (map fst raw) /\ name = pm_name m /\
    pts = map (to_point (r_views r) cost scale compare) (filter (fun w => String.eqb (f_alg w) a) (prepare m rows)).
Proof.
  unfold curves, preprocess. destruct (r_raw_plot r) as [raw|]; [|cbn; split; [tauto|intros (?&?&?&?&?&?&H&_); discriminate]].
  destruct (r_plot r) as [rows|]; [|cbn; split; [tauto|intros (?&?&?&?&?&?&_&H&_); discriminate]].
  destruct raw as [|(m0, algs0) rest]; [cbn; split; [tauto|intros (?&?&?&?&?&?&H&_&E&_); injection H as <-; discriminate]|].
  cbn [map fst]. set (fr := (m0, prepare m0 rows) :: _).
  assert (Fr : fr = map (fun p => (fst p, prepare (fst p) rows)) ((m0, algs0) :: rest)) by reflexivity.
  rewrite Fr at 1. rewrite in_flat_map. split.
  - intros (p & I & J). apply in_map_iff in I. destruct I as (q & <- & I). cbn [fst snd] in J. apply in_map_iff in J. destruct J as (b & E & J).
    injection E as <- <- <-. apply uniq_In in J. exists ((m0, algs0) :: rest), rows, m0, algs0, rest, (fst q). repeat split; auto; [apply J|apply in_map, I].
  - intros (raw & rows' & m0' & algs0' & rest' & m & E1 & E2 & E3 & I & J & -> & ->). injection E1 as <-. injection E2 as <-. injection E3 as <- <- <-.
    apply in_map_iff in J. destruct J as (q & <- & J). exists (fst q, prepare (fst q) rows). split; [apply in_map_iff; eauto|].
    cbn [fst snd]. apply in_map_iff. exists a. split; auto. apply uniq_In. auto.
Qed.

(** The points of a curve are, in order, exactly the rows of that metric and
    algorithm before the algorithm's first infinite value: same values, on a
    logarithmic axis 1e-15 for those that are not positive, at their iteration,
    moved by one if the iteration axis is logarithmic and 0 would be shown. *)
Theorem C72_points : forall r cost scale compare name a pts,
  In (name, a, pts) (curves r cost scale compare) ->
  exists raw rows m sh k, r_raw_plot r = Some raw /\ r_plot r = Some rows /\ In m (map fst raw) /\ pm_name m = name /\
    shifted rows m sh /\ kept (shown rows name a) rows k /\
    Forall2 (fun w p => drawn_row (pm_ylog m) w p /\ (plain_axis r cost compare -> pt_iter p = Some (p_iter w + sh)%Z)) k pts.
Proof.
  intros r cost scale compare name a pts I. apply In_curves in I.
  destruct I as (raw & rows & m0 & algs0 & rest & m & E1 & E2 & E3 & _ & J & -> & ->).
  destruct (prepare_eq m rows) as (sh & S & E). destruct (truncated_of m rows a) as (k & K & Ek).
  exists raw, rows, m, sh, k. repeat split; auto. rewrite E, filter_alg_prepared, Ek, !map_map. clear - k.
  induction k as [|w k IH]; cbn [map]; constructor; auto. split; [apply to_point_drawn|]. intro P. rewrite to_point_iter; auto.
  unfold liftw. destruct (pm_ylog m); reflexivity.
Qed.

(** There is one curve per plot metric and per algorithm that has something to
    show in the first plot metric. *)
Theorem C72_curves : forall r cost scale compare raw rows m0 algs0 rest, r_raw_plot r = Some raw -> r_plot r = Some rows -> raw = (m0, algs0) :: rest ->
  (forall name a, (exists pts, In (name, a, pts) (curves r cost scale compare)) <->
     has_plot_metric r name /\ exists w, In w rows /\ shown rows (pm_name m0) a w) /\
  (NoDup (r_plot_metrics r) -> NoDup (map fst (curves r cost scale compare))).
Proof.
  intros r cost scale compare raw rows m0 algs0 rest E1 E2 E3. split.
  - intros name a. unfold has_plot_metric, r_plot_metrics. rewrite E1. cbn [names_of]. split.
    + intros (pts & I). apply In_curves in I. destruct I as (raw' & rows' & m0' & algs0' & rest' & m & E1' & E2' & E3' & I & J & -> & _).
      rewrite E1 in E1'. injection E1' as <-. rewrite E2 in E2'. injection E2' as <-. rewrite E3 in E3'. injection E3' as <- <- <-.
      split; [|now apply prepared_algs]. apply in_map_iff in J. destruct J as (q & <- & J). apply (in_map (fun p => pm_name (fst p))), J.
    + intros (I & W). apply in_map_iff in I. destruct I as (q & <- & I). eexists. apply In_curves.
      exists raw, rows, m0, algs0, rest, (fst q). repeat split; auto; [now apply prepared_algs|apply in_map, I].
  - intro ND. unfold r_plot_metrics in ND. rewrite E1 in ND. cbn [names_of] in ND. unfold curves, preprocess. rewrite E1, E2, E3. cbn [map fst].
    set (al := uniq [] (map f_alg (prepare m0 rows))). assert (NA : NoDup al) by apply uniq_NoDup.
    set (fr := (m0, prepare m0 rows) :: _). assert (ND' : NoDup (map (fun p => pm_name (fst p)) fr)).
    { assert (Fr : fr = map (fun p => (fst p, prepare (fst p) rows)) raw) by now rewrite E3. rewrite Fr, map_map. exact ND. }
    clearbody fr al. clear - NA ND'. induction fr as [|p fr IH]; cbn [flat_map map]; [constructor|].
    inversion ND'; subst. rewrite map_app, map_map. cbn [fst].
    assert (ND1 : NoDup (map (fun a => (pm_name (fst p), a)) al)).
    { clear - NA. induction al; cbn; constructor; inversion NA; subst; auto. rewrite in_map_iff. intros (x & E & I). injection E as ->. auto. }
    rename H1 into NI. specialize (IH H2). clear - ND1 NI IH. induction al as [|a al IHa] in ND1, IH |- *.
    + cbn [map app]. exact IH.
    + clear IHa. revert ND1. generalize (a :: al) at 1 2 as l. intro l. revert IH. generalize (a :: al) as al'. intros al' IH ND1.
      induction l as [|b l IHl]; cbn [map app]; auto. inversion ND1; subst. constructor; auto. rewrite in_app_iff. intros [I|I]; auto.
      apply in_map_iff in I. destruct I as (((n', a'), pts) & E & I). cbn [fst] in E. injection E as -> ->. apply in_flat_map in I. destruct I as (q & Iq & I).
      apply in_map_iff in I. destruct I as (c & E & _). injection E as E _ _. apply NI. rewrite <- E. apply (in_map (fun p => pm_name (fst p))), Iq.
Qed.

(** So no infinite value is drawn, on a logarithmic axis only positive values
    (or NaN, which draws nothing) and iterations from 1 on. *)
Theorem C72_drawable : forall r cost scale compare name a pts p rows,
  In (name, a, pts) (curves r cost scale compare) -> In p pts -> r_plot r = Some rows ->
  (forall y, In y [pt_mean p; pt_min p; pt_max p] -> ~ infinite y) /\
  (exists m, has_plot_metric r (pm_name m) /\ pm_name m = name /\
     (pm_ylog m = true -> forall y, In y [pt_mean p; pt_min p; pt_max p] -> y = NaN \/ exists v, y = Fin v /\ 0 < v) /\
     (pm_xlog m = true -> (forall w, In w rows -> (0 <= p_iter w)%Z) -> forall i, pt_iter p = Some i -> plain_axis r cost compare -> (1 <= i)%Z)).
Proof.
  intros r cost scale compare name a pts p rows I Ip Er. destruct (C72_points _ _ _ _ _ _ _ I) as (raw & rows' & m & sh & k & E1 & E2 & J & Em & S & K & F).
  rewrite Er in E2. injection E2 as <-. assert (W : exists w, In w k /\ drawn_row (pm_ylog m) w p /\ (plain_axis r cost compare -> pt_iter p = Some (p_iter w + sh)%Z)).
  { clear - F Ip. induction F; cbn in Ip; [tauto|]. destruct Ip as [<-|Ip]; [exists x; cbn; tauto|]. destruct (IHF Ip) as (w & Iw & H'). exists w. cbn. tauto. }
  destruct W as (w & Iw & (Dm & Dn & Dx) & It). apply (proj1 (kept_In _ _ _ K w)) in Iw. destruct Iw as (Iw & Sw).
  assert (NI : ~ diverged w).
  { intro D. destruct Sw as (A & B & H). specialize (H w Iw A B D). lia. }
  assert (Y : forall v v', drawn_as (pm_ylog m) v v' -> ~ infinite v -> ~ infinite v' /\ (pm_ylog m = true -> v' = NaN \/ exists u, v' = Fin u /\ 0 < u)).
  { intros v v' D N. unfold drawn_as in D. destruct (pm_ylog m).
    - destruct D as [(_ & ->)|(P & ->)].
      + split; [intros [H|H]; discriminate|]. intros _. right. eexists. split; [reflexivity|]. apply Rinv_0_lt_compat, pow_lt. lra.
      + split; auto. intros _. destruct v as [u| | |]; auto; [|destruct N; left; auto|destruct N; right; auto].
        right. exists u. split; auto. apply Rnot_le_lt. intro L. apply P. right. eauto.
    - subst. split; auto. discriminate. }
  assert (N3 : ~ infinite (p_mean w) /\ ~ infinite (p_min w) /\ ~ infinite (p_max w)) by (unfold diverged in NI; tauto).
  destruct N3 as (N1 & N2 & N3). assert (Y1 := Y _ _ Dm N1). assert (Y2 := Y _ _ Dn N2). assert (Y3 := Y _ _ Dx N3).
  split; [intros y [<-|[<-|[<-|[]]]]; tauto|]. exists m. split; [|split; [auto|split]].
  - unfold has_plot_metric, r_plot_metrics. rewrite E1. cbn [names_of]. apply in_map_iff in J. destruct J as (q & <- & J). apply (in_map (fun p => pm_name (fst p))), J.
  - intros L y [<-|[<-|[<-|[]]]]; tauto.
  - intros X P i Ei Pl. rewrite (It Pl) in Ei. injection Ei as <-. specialize (P w Iw). destruct S as [(-> & _)|(-> & N)]; [lia|].
    destruct (Z.eq_dec (p_iter w) 0) as [Z0|]; [|lia]. exfalso. apply N. split; auto. exists a, w. rewrite Em. auto.
Qed.

(** Q's regret is infinite from iteration 2 on; on the logarithmic axes 0 becomes
    1e-15 and iterations start at 1. *)
Definition mL := mkPM "regret" true true false.
Definition rowsL : list prow :=
  [mkP "regret" "P" 0 (Fin 4) (Fin 1) (Fin 9); mkP "regret" "P" 2 (Fin 0) (Fin 0) (Fin 0);
   mkP "regret" "Q" 0 (Fin 4) (Fin 4) (Fin 4); mkP "regret" "Q" 2 PInf (Fin 4) PInf; mkP "regret" "Q" 3 (Fin 1) (Fin 1) (Fin 1)].
Definition resL := mkRes None None (Some [(mL, ["P"; "Q"]%string)]) None (Some rowsL).
Ltac rdec := repeat match goal with |- context [Rle_dec ?x ?y] => destruct (Rle_dec x y); try (exfalso; lra) | |- context [Rlt_dec ?x ?y] => destruct (Rlt_dec x y); try (exfalso; lra) end.
Example C72_case : curves resL None 1 false =
  [("regret", "P", [mkPt (Some 1%Z) None (Fin 4) (Fin 1) (Fin 9); mkPt (Some 3%Z) None (Fin min_y) (Fin min_y) (Fin min_y)]);
   ("regret", "Q", [mkPt (Some 1%Z) None (Fin 4) (Fin 4) (Fin 4)])]%string.
Proof.
  unfold curves, preprocess. cbn [r_raw_plot r_plot resL map fst]. unfold prepare. cbn [pm_xlog pm_ylog mL].
  rewrite lift_eq. unfold truncate. cbn [rowsL filter map p_metric mL pm_name]. cbn -[min_y Rle_dec]. unfold mask, maskw, le0. cbn -[min_y Rle_dec]. rdec. reflexivity.
Qed.

(** Not true: every algorithm with finite values of a metric has its curve.  If
    its values of the FIRST metric are infinite from the start, it is missing
    from the plots of all metrics (line 211 takes the algorithms from the
    first frame only). *)
Definition mC := mkPM "consensus" false true false.
Definition rowsM : list prow := [mkP "regret" "P" 0 (Fin 1) (Fin 1) (Fin 1); mkP "regret" "Q" 0 PInf PInf PInf;
  mkP "consensus" "P" 0 (Fin 1) (Fin 1) (Fin 1); mkP "consensus" "Q" 0 (Fin 1) (Fin 1) (Fin 1); mkP "consensus" "Q" 1 (Fin 1) (Fin 1) (Fin 1)].
Definition resM := mkRes None None (Some [(mA, ["P"; "Q"]%string); (mC, ["P"; "Q"]%string)]) None (Some rowsM).
Lemma resM_consistent : consistent resM.
Proof.
  split; intros rows w E I; cbn in E; [discriminate|]. injection E as <-. cbn in I. unfold has_plot_metric, has_algorithm.
  repeat destruct I as [<-|I]; cbn; tauto.
Qed.
Theorem C72_every_algorithm_drawn_refuted : ~ (forall r rows cost scale compare a w, consistent r -> r_plot r = Some rows -> In w rows ->
  shown rows (p_metric w) a w -> exists pts, In (p_metric w, a, pts) (curves r cost scale compare)).
Proof.
  intro H. specialize (H resM rowsM None 1 false "Q"%string (mkP "consensus" "Q" 1 (Fin 1) (Fin 1) (Fin 1)) resM_consistent eq_refl).
  assert (Z : In (mkP "consensus" "Q" 1 (Fin 1) (Fin 1) (Fin 1)) rowsM) by (cbn; tauto). specialize (H Z).
  assert (S : shown rowsM "consensus" "Q" (mkP "consensus" "Q" 1 (Fin 1) (Fin 1) (Fin 1))).
  { split; [reflexivity|]. split; [reflexivity|]. intros w' I E A D. cbn in I. unfold diverged, infinite in D.
    repeat (destruct I as [<-|I]; [cbn in *; intuition discriminate|]). destruct I. }
  specialize (H S). cbn [p_metric] in H.
  apply (proj1 (C72_curves resM None 1 false _ rowsM mA ["P"; "Q"]%string _ eq_refl eq_refl eq_refl)) in H. destruct H as (_ & w & I & E & A & N).
  cbn in I. repeat destruct I as [<-|I]; try discriminate; try destruct I.
  specialize (N (mkP "regret" "Q" 0 PInf PInf PInf)). cbn in N. assert (X : (0 < 0)%Z); [|lia]. apply N; auto. left. left. reflexivity.
Qed.

(** Not true: replacing what is not positive keeps the order of the values.
    The replacement is always 1e-15, however small the positive values are
    ([not positive_values] on line 123 never holds). *)
Definition tiny : R := / 10 ^ 20.
Definition rowsO : list prow := [mkP "regret" "P" 0 (Fin tiny) (Fin tiny) (Fin tiny); mkP "regret" "P" 1 (Fin 0) (Fin 0) (Fin 0)].
Definition resO := mkRes None None (Some [(mA, ["P"]%string)]) None (Some rowsO).
Lemma tiny_pos : 0 < tiny < min_y.
Proof.
  unfold tiny, min_y. split; [apply Rinv_0_lt_compat, pow_lt; lra|]. apply Rinv_lt_contravar; [apply Rmult_lt_0_compat; apply pow_lt; lra|].
  apply Rlt_pow; [lra|lia].
Qed.
Lemma curves_O : curves resO None 1 false =
  [("regret", "P", [mkPt (Some 0%Z) None (Fin tiny) (Fin tiny) (Fin tiny); mkPt (Some 1%Z) None (Fin min_y) (Fin min_y) (Fin min_y)])]%string.
Proof.
  unfold curves, preprocess. cbn [r_raw_plot r_plot resO map fst]. unfold prepare. cbn [pm_xlog pm_ylog mA].
  rewrite lift_eq. unfold truncate. cbn [rowsO filter map p_metric mA pm_name]. cbn -[min_y tiny Rle_dec]. unfold mask, maskw, le0. cbn -[min_y tiny Rle_dec].
  assert (P := tiny_pos). rdec. reflexivity.
Qed.
Theorem C72_order_kept_refuted : ~ (forall r rows name a pts w1 w2 y1 y2, r_plot r = Some rows -> In (name, a, pts) (curves r None 1 false) ->
  In w1 rows -> In w2 rows -> shown rows name a w1 -> shown rows name a w2 -> p_mean w1 = Fin y1 -> p_mean w2 = Fin y2 -> y1 <= y2 ->
  forall p1 p2 z1 z2, In p1 pts -> In p2 pts -> pt_iter p1 = Some (p_iter w1) -> pt_iter p2 = Some (p_iter w2) -> pt_mean p1 = Fin z1 -> pt_mean p2 = Fin z2 -> z1 <= z2).
Proof.
  intro H. assert (P := tiny_pos).
  assert (S : forall w, In w rowsO -> shown rowsO "regret" "P" w).
  { intros w I. assert (EA : p_metric w = "regret"%string /\ p_alg w = "P"%string) by (cbn in I; repeat (destruct I as [<-|I]; [split; reflexivity|]); destruct I).
    split; [apply EA|]. split; [apply EA|]. intros w' I' _ _ D. cbn in I'. unfold diverged, infinite in D.
    repeat (destruct I' as [<-|I']; [cbn in *; intuition discriminate|]). destruct I'. }
  specialize (H resO rowsO "regret"%string "P"%string [mkPt (Some 0%Z) None (Fin tiny) (Fin tiny) (Fin tiny); mkPt (Some 1%Z) None (Fin min_y) (Fin min_y) (Fin min_y)] (mkP "regret" "P" 1 (Fin 0) (Fin 0) (Fin 0)) (mkP "regret" "P" 0 (Fin tiny) (Fin tiny) (Fin tiny)) 0 tiny eq_refl).
  rewrite curves_O in H. specialize (H (or_introl eq_refl) (or_intror (or_introl eq_refl)) (or_introl eq_refl)).
  specialize (H (S _ (or_intror (or_introl eq_refl))) (S _ (or_introl eq_refl)) eq_refl eq_refl (Rlt_le _ _ (proj1 P))).
  specialize (H _ _ min_y tiny (or_intror (or_introl eq_refl)) (or_introl eq_refl) eq_refl eq_refl eq_refl eq_refl). lra.
Qed.

(** ** C73: the computational-cost axis *)
Lemma mean_np l : l <> [] -> mean_is l (np_mean l).
Proof.
  intro N. split; auto. unfold np_mean. destruct l as [|x l]; [congruence|].
  assert (P : 0 < INR (List.length (x :: l))) by (apply lt_0_INR; cbn; lia).
  assert (E : rsum (x :: l) = fold_right Rplus 0 (x :: l)).
  { clear. induction (x :: l) as [|b k IH]; [reflexivity|]. rewrite rsum_cons, IH. reflexivity. }
  rewrite <- E. field. lra.
Qed.
Lemma mean_unique l a b : mean_is l a -> mean_is l b -> a = b.
Proof.
  intros (N & A) (_ & B). destruct l as [|x l]; [congruence|]. assert (P : 0 < INR (List.length (x :: l))) by (apply lt_0_INR; cbn; lia).
  apply (Rmult_eq_reg_l (INR (List.length (x :: l)))); lra.
Qed.
(** The total cost of an algorithm is the documented one: costs per call times
    the mean numbers of calls over all agents and trials.  With no agent at all it is NaN. *)
Theorem C73_total : forall views c,
  (forall total, documented_total views c total <-> total_cost_of views c = Fin total) /\
  (List.concat (map nv_agents views) = [] <-> total_cost_of views c = NaN).
Proof.
  intros views c. unfold total_cost_of, documented_total. rewrite <- flat_map_concat_map. destruct (flat_map nv_agents views) as [|x l] eqn:E.
  - split; [|tauto]. intro total. split; [|discriminate]. intros (nf & ng & nh & np & nc & (N & _) & _). cbn in N. congruence.
  - split; [|split; discriminate]. intro total. split.
    + intros (nf & ng & nh & np & nc & Hf & Hg & Hh & Hp & Hc & ->).
      assert (U : forall f m, mean_is (map f (x :: l)) m -> np_mean (map f (x :: l)) = m) by (intros f m H; apply (mean_unique (map f (x :: l))); auto; apply mean_np; discriminate).
      now rewrite (U _ _ Hf), (U _ _ Hg), (U _ _ Hh), (U _ _ Hp), (U _ _ Hc).
    + intro H. injection H as <-. do 5 eexists. split; [apply mean_np; discriminate|]. split; [apply mean_np; discriminate|]. split; [apply mean_np; discriminate|].
      split; [apply mean_np; discriminate|]. split; [apply mean_np; discriminate|]. reflexivity.
Qed.

(** Against computational cost a row stands at its (moved) iteration times the
    scaled total; the iteration is kept only if both axes are asked for.  Without
    costs or without network views there is no such axis. *)
Theorem C73_axis : forall r c scale compare v vs total name a pts,
  r_views r = Some v -> dget String.eqb v a = Some vs -> documented_total vs c total ->
  In (name, a, pts) (curves r (Some c) scale compare) ->
  exists raw rows m sh k, r_raw_plot r = Some raw /\ r_plot r = Some rows /\ In m (map fst raw) /\ pm_name m = name /\
    shifted rows m sh /\ kept (shown rows name a) rows k /\
    Forall2 (fun w p => drawn_row (pm_ylog m) w p /\ pt_compute p = Some (Fin (IZR (p_iter w + sh) * (scale * total))) /\
       pt_iter p = if compare then Some (p_iter w + sh)%Z else None) k pts.
Proof.
  intros r c scale compare v vs total name a pts Ev Ea T I. apply In_curves in I.
  destruct I as (raw & rows & m0 & algs0 & rest & m & E1 & E2 & E3 & _ & J & -> & ->).
  destruct (prepare_eq m rows) as (sh & S & E). destruct (truncated_of m rows a) as (k & K & Ek).
  exists raw, rows, m, sh, k. repeat split; auto. rewrite E, filter_alg_prepared, Ek, !map_map.
  assert (A : forall w, In w k -> p_alg w = a) by (intros w I; apply (kept_In _ _ _ K) in I; apply I).
  apply (proj1 (C73_total vs c)) in T. clear - A Ev Ea T.
  induction k as [|w k IH]; cbn [map]; constructor; [|apply IH; intros; apply A; right; auto]. split; [apply to_point_drawn|].
  assert (Aw := A w (or_introl eq_refl)). rewrite Ev. unfold to_point, shiftw, compute_of. cbn [f_iter f_alg].
  assert (El : f_alg (liftw (pm_ylog m) (to_frow w)) = a) by (unfold liftw; now destruct (pm_ylog m)).
  assert (Ei : f_iter (liftw (pm_ylog m) (to_frow w)) = p_iter w) by (unfold liftw; now destruct (pm_ylog m)).
  rewrite El, Ei, Ea, T. cbn [fscale pt_compute pt_iter]. auto.
Qed.
Theorem C73_needs_costs_and_views : forall r cost scale compare name a pts p, cost = None \/ r_views r = None ->
  In (name, a, pts) (curves r cost scale compare) -> In p pts -> pt_compute p = None.
Proof.
  intros r cost scale compare name a pts p H I Ip. apply In_curves in I.
  destruct I as (raw & rows & m0 & algs0 & rest & m & _ & _ & _ & _ & _ & _ & ->). apply in_map_iff in Ip. destruct Ip as (w & <- & _).
  unfold to_point. destruct H as [-> | ->]; auto. now destruct cost.
Qed.

(** Not true: work is where it was spent.  P runs one iteration and Q two, one
    gradient per iteration each; after the first iteration both have spent one
    gradient, yet they stand at 1 and at 2.  At its end Q (2 gradients) stands at 4. *)
Definition worker (g : nat) : aview := mkView 0%nat (mkCost (fun _ => 0) (fun x => x) 1%nat) (mkHist [] []) 0%nat (fun k => match k with KGradient => g | _ => 0%nat end) 0%Qc 0%Qc 0%Qc 0%nat.
Definition viewG (g : nat) : nview := mkNView [worker g] None.
Definition cc1 := mkCC 1 1 1 1 1.
Definition rowsW : list prow := [mkP "loss" "P" 0 (Fin 1) (Fin 1) (Fin 1); mkP "loss" "P" 1 (Fin 1) (Fin 1) (Fin 1);
  mkP "loss" "Q" 0 (Fin 1) (Fin 1) (Fin 1); mkP "loss" "Q" 1 (Fin 1) (Fin 1) (Fin 1); mkP "loss" "Q" 2 (Fin 1) (Fin 1) (Fin 1)].
Definition mW := mkPM "loss" false false false.
Definition resW := mkRes (Some [("P"%string, [viewG 1]); ("Q"%string, [viewG 2])]) None (Some [(mW, ["P"; "Q"]%string)]) None (Some rowsW).
Lemma total_G g : documented_total [viewG g] cc1 (INR g).
Proof.
  exists 0, (INR g), 0, 0, 0. unfold mean_is. cbn -[INR Q2R']. change (INR 0) with 0. change (INR 1) with 1. unfold Q2R'. cbn.
  repeat split; try discriminate; try lra.
Qed.
Lemma no_inf_W w : In w rowsW -> ~ diverged w.
Proof. intros I D. unfold diverged, infinite in D. cbn in I. repeat (destruct I as [<-|I]; [cbn in *; intuition discriminate|]). destruct I. Qed.
Lemma curve_W a : In a ["P"; "Q"]%string -> exists pts, In ("loss"%string, a, pts) (curves resW (Some cc1) 1 false) /\
  forall w, In w rowsW -> p_alg w = a -> exists p, In p pts /\ pt_compute p = Some (Fin (IZR (p_iter w) * INR (if String.eqb a "P" then 1 else 2))).
Proof.
  intro Ia. destruct (proj2 (proj1 (C72_curves resW (Some cc1) 1 false _ rowsW mW ["P"; "Q"]%string [] eq_refl eq_refl eq_refl) "loss"%string a)) as (pts & I).
  { split; [cbn; auto|]. destruct Ia as [<-|[<-|[]]]; [exists (mkP "loss" "P" 0 (Fin 1) (Fin 1) (Fin 1))|exists (mkP "loss" "Q" 0 (Fin 1) (Fin 1) (Fin 1))];
      (split; [cbn; tauto|]; split; [reflexivity|]; split; [reflexivity|]; intros w' Iw _ _ D; destruct (no_inf_W w' Iw D)). }
  exists pts. split; auto. intros w Iw Aw.
  assert (V : exists vs, dget String.eqb [("P"%string, [viewG 1]); ("Q"%string, [viewG 2])] a = Some vs /\ documented_total vs cc1 (INR (if String.eqb a "P" then 1 else 2))).
  { destruct Ia as [<-|[<-|[]]]; eexists; (split; [reflexivity|]); apply total_G. }
  destruct V as (vs & Ev & T). destruct (C73_axis resW cc1 1 false _ vs _ _ a pts eq_refl Ev T I) as (raw & rows & m & sh & k & E1 & E2 & J & Em & S & K & F).
  cbn in E1, E2. injection E1 as <-. injection E2 as <-. assert (Ik : In w k).
  { apply (kept_In _ _ _ K). split; auto. split; [|split; auto]. - cbn in Iw. repeat (destruct Iw as [<-|Iw]; [reflexivity|]). destruct Iw. - intros w' Iw' _ _ D. destruct (no_inf_W w' Iw' D). }
  assert (Em' : m = mW) by (cbn in J; destruct J as [<-|[]]; auto). subst m.
  assert (Es : sh = 0%Z) by (destruct S as [(_ & X & _)|(-> & _)]; [discriminate|auto]). subst sh. clear - F Ik.
  induction F as [|w' p k' pts' H F IH]; [destruct Ik|]. destruct Ik as [->|Ik].
  - exists p. split; [left; auto|]. destruct H as (_ & -> & _). f_equal. f_equal. rewrite Z.add_0_r. lra.
  - destruct (IH Ik) as (q & Iq & Eq). exists q. split; [right; auto|auto].
Qed.
Theorem C73_same_work_refuted :
  exists pP pQ qQ ptsP ptsQ,
    (forall a, In a (nv_agents (viewG 1)) -> v_calls a KGradient = 1%nat) /\ (forall a, In a (nv_agents (viewG 2)) -> v_calls a KGradient = 2%nat) /\
    In ("loss"%string, "P"%string, ptsP) (curves resW (Some cc1) 1 false) /\ In ("loss"%string, "Q"%string, ptsQ) (curves resW (Some cc1) 1 false) /\
    In pP ptsP /\ pt_compute pP = Some (Fin 1) /\ In pQ ptsQ /\ pt_compute pQ = Some (Fin 2) /\ In qQ ptsQ /\ pt_compute qQ = Some (Fin 4).
Proof.
  destruct (curve_W "P" (or_introl eq_refl)) as (ptsP & IP & HP). destruct (curve_W "Q" (or_intror (or_introl eq_refl))) as (ptsQ & IQ & HQ).
  destruct (HP (mkP "loss" "P" 1 (Fin 1) (Fin 1) (Fin 1))) as (pP & J1 & E1); [cbn; tauto|reflexivity|].
  destruct (HQ (mkP "loss" "Q" 1 (Fin 1) (Fin 1) (Fin 1))) as (pQ & J2 & E2); [cbn; tauto|reflexivity|].
  destruct (HQ (mkP "loss" "Q" 2 (Fin 1) (Fin 1) (Fin 1))) as (qQ & J3 & E3); [cbn; tauto|reflexivity|].
  exists pP, pQ, qQ, ptsP, ptsQ. cbn [p_iter String.eqb Ascii.eqb Bool.eqb] in E1, E2, E3.
  split; [intros a [<-|[]]; reflexivity|]. split; [intros a [<-|[]]; reflexivity|]. split; auto. split; auto. split; auto.
  split; [rewrite E1; f_equal; f_equal; cbn; lra|]. split; auto. split; [rewrite E2; f_equal; f_equal; cbn; lra|]. split; [exact J3|]. rewrite E3; f_equal; f_equal; cbn; lra.
Qed.
Example C73_case : total_cost_of [viewG 1; viewG 2] cc1 = Fin (3 / 2) /\ documented_total [viewG 1; viewG 2] cc1 (3 / 2).
Proof.
  assert (D : documented_total [viewG 1; viewG 2] cc1 (3 / 2)); [|split; [now apply C73_total|auto]].
  exists 0, (3 / 2), 0, 0, 0. unfold mean_is, Q2R'. cbn. repeat split; try discriminate; try lra.
Qed.

(** ** C74: tables and layout *)
Lemma scaled_keys raw scale u : t_metric (scaled_row raw scale u) = t_metric u /\ t_stat (scaled_row raw scale u) = t_stat u /\ t_alg (scaled_row raw scale u) = t_alg u.
Proof. unfold scaled_row. destruct (find _ raw) as [m0|]; [destruct (pm_counts m0)|]; repeat split; reflexivity. Qed.
Lemma fscale_times c v : times c v (fscale c v).
Proof. destruct v; cbn; auto; destruct (Rlt_dec 0 c), (Rlt_dec c 0); auto; right; right; split; auto; lra. Qed.
(** A cell of the table holds mean and std of its row, for the call counters
    multiplied by scale_compute; no row, no cell. *)
Theorem C74_cell : forall raw scale rows w, NoDup (map pm_name raw) -> In w rows -> (forall w', In w' rows -> same_cell w w' -> w' = w) ->
  (forall m, In m raw -> pm_name m = t_metric w ->
     exists mean std, table_cell raw scale rows (t_metric w) (t_stat w) (t_alg w) = Some (mean, std) /\
       if pm_counts m then times scale (t_mean w) mean /\ times scale (t_std w) std else mean = t_mean w /\ std = t_std w).
Proof.
  intros raw scale rows w ND I U m Im Em. unfold table_cell.
  assert (Fm : find (fun m' => String.eqb (pm_name m') (t_metric w)) raw = Some m).
  { rewrite <- Em. clear - ND Im. induction raw as [|m' raw IH]; [destruct Im|]. cbn [find]. inversion ND; subst. destruct Im as [->|Im]; [now rewrite String.eqb_refl|].
    destruct (String.eqb (pm_name m') (pm_name m)) eqn:E; auto. apply String.eqb_eq in E. destruct H1. rewrite E. now apply in_map. }
  assert (Sk := scaled_keys raw scale).
  assert (F : find (fun u => String.eqb (t_metric u) (t_metric w) && String.eqb (t_stat u) (t_stat w) && String.eqb (t_alg u) (t_alg w)) (map (scaled_row raw scale) rows) = Some (scaled_row raw scale w)).
  { clear Fm. induction rows as [|u rows IH]; [destruct I|]. cbn [map find]. destruct (Sk u) as (-> & -> & ->).
    destruct (String.eqb (t_metric u) (t_metric w) && String.eqb (t_stat u) (t_stat w) && String.eqb (t_alg u) (t_alg w)) eqn:E.
    - rewrite !andb_true_iff, !String.eqb_eq in E. destruct E as ((A & B) & C). rewrite (U u (or_introl eq_refl)); auto. repeat split; auto.
    - destruct I as [->|I]; [rewrite !String.eqb_refl in E; discriminate|]. apply IH; auto. intros w' Iw. apply U. right. auto. }
  rewrite F. unfold scaled_row. rewrite Fm. destruct (pm_counts m); eexists _, _; (split; [reflexivity|]); cbn [t_mean t_std]; auto using fscale_times.
Qed.
Theorem C74_no_cell : forall raw scale rows metric stat alg,
  table_cell raw scale rows metric stat alg = None <-> forall w, In w rows -> ~ (t_metric w = metric /\ t_stat w = stat /\ t_alg w = alg).
Proof.
  intros raw scale rows metric stat alg. unfold table_cell.
  assert (Sk := scaled_keys raw scale).
  induction rows as [|u rows IH]; cbn [map find]; [split; auto|]. destruct (Sk u) as (-> & -> & ->).
  destruct (String.eqb (t_metric u) metric && String.eqb (t_stat u) stat && String.eqb (t_alg u) alg) eqn:E.
  - rewrite !andb_true_iff, !String.eqb_eq in E. split; [discriminate|]. intro H. destruct (H u (or_introl eq_refl)). tauto.
  - rewrite IH. split; [|intros H w I; apply H; right; auto]. intros H w [<-|I]; auto. intros (A & B & C). subst. rewrite !String.eqb_refl in E. discriminate.
Qed.
(** The divergence hint appears exactly if some mean or std is infinite. *)
Theorem C74_hint : forall rows, warns_infinite rows = true <-> exists w, In w rows /\ (infinite (t_mean w) \/ infinite (t_std w)).
Proof. intro rows. unfold warns_infinite. rewrite existsb_exists. setoid_rewrite orb_true_iff. setoid_rewrite is_inf_iff. reflexivity. Qed.
Example C74_case : table_cell [mA; mB] 2 [mkT "calls" "P" "mean" (Fin 3) (Fin 1); mkT "regret" "P" "mean" (Fin 3) (Fin 1)] "calls" "mean" "P" = Some (Fin (2 * 3), Fin (2 * 1)) /\
  table_cell [mA; mB] 2 [mkT "calls" "P" "mean" (Fin 3) (Fin 1); mkT "regret" "P" "mean" (Fin 3) (Fin 1)] "regret" "mean" "P" = Some (Fin 3, Fin 1).
Proof. split; reflexivity. Qed.

(** Every metric is in exactly one figure, in order; a figure holds one to three
    metrics, exactly one with individual_plots. *)
Lemma chunks_ok {A} k : (0 < k)%nat -> forall fuel (l : list A), (List.length l <= fuel)%nat -> List.concat (chunks fuel k l) = l /\ Forall (fun g => (1 <= List.length g <= k)%nat) (chunks fuel k l).
Proof.
  intros Pk fuel. induction fuel as [|fuel IH]; intros l L; [destruct l; [split; [auto|constructor]|cbn in L; lia]|].
  destruct l as [|x l]; [split; [auto|constructor]|]. change (chunks (S fuel) k (x :: l)) with (firstn k (x :: l) :: chunks fuel k (skipn k (x :: l))).
  destruct (IH (skipn k (x :: l))) as (E & F); [rewrite skipn_length; cbn [List.length] in L |- *; lia|]. split.
  - change (firstn k (x :: l) ++ List.concat (chunks fuel k (skipn k (x :: l))) = x :: l). rewrite E. apply firstn_skipn.
  - constructor; auto. rewrite firstn_length. cbn [List.length]. lia.
Qed.
Theorem C74_figures : forall (A : Type) individual (l : list A),
  List.concat (organize individual l) = l /\ Forall (fun g => (1 <= List.length g <= if individual then 1 else 3)%nat) (organize individual l).
Proof.
  intros A [|] l; unfold organize; [|apply chunks_ok; lia]. split.
  - induction l as [|x l IH]; cbn; auto. now rewrite IH.
  - apply Forall_forall. intros g I. apply in_map_iff in I. destruct I as (x & <- & _). cbn. lia.
Qed.
Example C74_case_figures : organize false [1;2;3;4]%nat = [[1;2;3];[4]]%nat.
Proof. reflexivity. Qed.

(** Two of the first 1092 algorithms never get the same marker, line style and
    colour, two of the first 84 not even the same marker and style. *)
Theorem C74_distinguishable : forall i j,
  ((i < 84)%nat -> (j < 84)%nat -> fst (marker_style_color i) = fst (marker_style_color j) -> i = j) /\
  ((i < 1092)%nat -> (j < 1092)%nat -> marker_style_color i = marker_style_color j -> i = j).
Proof.
  assert (U : forall a b, (a < 84)%nat -> (b < 84)%nat -> (a mod 12 = b mod 12)%nat -> ((a / 12) mod 7 = (b / 12) mod 7)%nat -> a = b).
  { intros a b A B E1 E2. rewrite (Nat.mod_small (a / 12)) in E2 by (apply Nat.div_lt_upper_bound; lia). rewrite (Nat.mod_small (b / 12)) in E2 by (apply Nat.div_lt_upper_bound; lia).
    rewrite (Nat.div_mod a 12), (Nat.div_mod b 12) by lia. lia. }
  intros i j. unfold marker_style_color. cbn [fst]. change (12 * 7)%nat with 84%nat. split.
  - intros A B E. rewrite (Nat.mod_small i 84), (Nat.mod_small j 84) in E by auto. apply pair_equal_spec in E. destruct E as (E1 & E2). auto.
  - intros A B E. apply pair_equal_spec in E. destruct E as (E & E3). apply pair_equal_spec in E. destruct E as (E1 & E2).
    assert (E84 : (i mod 84 = j mod 84)%nat) by (apply U; auto; apply Nat.mod_upper_bound; lia).
    assert (Di := Nat.div_mod i 84 ltac:(lia)). assert (Dj := Nat.div_mod j 84 ltac:(lia)).
    assert (Ei := Nat.div_mod i 13 ltac:(lia)). assert (Ej := Nat.div_mod j 13 ltac:(lia)).
    assert (Bi := Nat.mod_upper_bound i 84 ltac:(lia)). assert (Ci := Nat.mod_upper_bound i 13 ltac:(lia)).
    revert Di Dj Ei Ej E84 E3. generalize (i mod 84)%nat (j mod 84)%nat (i mod 13)%nat (j mod 13)%nat (i / 84)%nat (j / 84)%nat (i / 13)%nat (j / 13)%nat. intros. subst. lia.
Qed.
Example C74_case_distinguishable : marker_style_color 0 <> marker_style_color 84 /\ fst (marker_style_color 0) = fst (marker_style_color 84) /\ marker_style_color 0 = marker_style_color 1092.
Proof. repeat split; vm_compute; congruence. Qed.

(** The legend grid has a place for every label, its columns are one to three,
    and its last row is not empty. *)
Theorem C74_legend : forall labels sep cols rows, legend_mode labels = (sep, cols, rows) ->
  (List.length labels <= rows * cols)%nat /\ (1 <= cols <= 3)%nat /\ (labels <> [] -> (rows - 1) * cols < List.length labels)%nat /\
  (sep = false -> (List.length labels <= 8)%nat /\ (rows <= 3)%nat).
Proof.
  intros labels sep cols rows E. unfold legend_mode in E. cbv zeta in E. apply pair_equal_spec in E. destruct E as (E & <-). apply pair_equal_spec in E. destruct E as (<- & <-). set (n := List.length labels). set (c := Nat.min (Nat.max n 1) 3).
  assert (C : (1 <= c <= 3)%nat) by (unfold c; lia). unfold ceil_div.
  assert (D := Nat.div_mod (n + (c - 1)) c ltac:(lia)). assert (M := Nat.mod_upper_bound (n + (c - 1)) c ltac:(lia)).
  revert D M. generalize ((n + (c - 1)) / c)%nat ((n + (c - 1)) mod c)%nat. intros q m D M.
  split; [nia|]. split; [auto|]. split.
  - intro NE. assert (P : (0 < n)%nat) by (unfold n; destruct labels; [congruence|cbn; lia]). nia.
  - intro F. apply orb_false_iff in F. destruct F as (F & _). apply orb_false_iff in F. destruct F as (F1 & F2). apply Nat.leb_gt in F1, F2. lia.
Qed.
Example C74_case_legend : legend_mode ["DGD"; "GT-SAGA"; "EXTRA"; "ATC"]%string = (false, 3, 2)%nat.
Proof. reflexivity. Qed.

Print Assumptions C71_displayed.
Print Assumptions C72_points.
Print Assumptions C72_every_algorithm_drawn_refuted.
Print Assumptions C73_axis.
Print Assumptions C73_same_work_refuted.
Print Assumptions C74_cell.
