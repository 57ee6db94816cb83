(** C109: the figures of the plots, their subplots, legends and files. *)
From Coq Require Import String List Bool Arith Lia Ascii.
From Verif.Model Require Import Display PlotFiles.
From Verif.Spec Require Import PlotFilesSpec.
Import ListNotations.
Local Open Scope nat_scope.

Lemma on_app i l l' : on_subplot i (l ++ l') = on_subplot i l ++ on_subplot i l'.
Proof. apply flat_map_app. Qed.
Lemma on_flat {A} i (f : A -> list (nat * pmetric * xaxis * string)) l : on_subplot i (flat_map f l) = flat_map (fun p => on_subplot i (f p)) l.
Proof. induction l as [|x l IH]; cbn [flat_map]; [reflexivity|]. now rewrite on_app, IH. Qed.
Lemma at_place {A B} (F : A -> list B) r : forall l s, flat_map (fun p : nat * A => if Nat.eqb (fst p) (s + r) then F (snd p) else []) (combine (seq s (List.length l)) l) = match nth_error l r with Some m => F m | None => [] end.
Proof.
  intros l. revert r. induction l as [|x l IH]; intros r s; [destruct r; reflexivity|]. cbn [List.length seq combine flat_map fst snd]. destruct r as [|r].
  - rewrite Nat.add_0_r, Nat.eqb_refl. cbn [nth_error]. replace (flat_map _ _) with (@nil B); [apply app_nil_r|]. symmetry.
    assert (H : forall p, In p (combine (seq (S s) (List.length l)) l) -> s < fst p) by (intros [a b] I; apply in_combine_l, in_seq in I; cbn; lia).
    induction (combine (seq (S s) (List.length l)) l) as [|p q IHq]; [reflexivity|]. cbn. replace (Nat.eqb (fst p) s) with false by (symmetry; apply Nat.eqb_neq; specialize (H p (or_introl eq_refl)); lia). apply IHq. intros; apply H; now right.
  - replace (Nat.eqb s (s + S r)) with false by (symmetry; apply Nat.eqb_neq; lia). cbn [app nth_error]. rewrite <- (IH r (S s)). apply flat_map_ext. intros p. now replace (s + S r) with (S s + r) by lia.
Qed.
Lemma n_cols_columns u v : n_cols u v = columns u v. Proof. reflexivity. Qed.
Lemma inner uc ui r c mi m algs : c < columns uc ui ->
  on_subplot (r * columns uc ui + c) (flat_map (fun a => if uc && ui then [(mi * 2, m, Cost, a); (mi * 2 + 1, m, Iterations, a)] else [(mi, m, if uc then Cost else Iterations, a)]) algs) =
  if Nat.eqb mi r then map (fun a => (m, column_axis uc ui c, a)) algs else [].
Proof.
  intros H. induction algs as [|a algs IH]; cbn [flat_map]; [now destruct (Nat.eqb mi r)|]. rewrite on_app, IH. clear IH. unfold columns in *.
  destruct (Nat.eqb mi r) eqn:E.
  - apply Nat.eqb_eq in E. subst mi. destruct uc, ui; cbn [andb] in *; cbn [on_subplot flat_map column_axis].
    + destruct c as [|[|c]]; [| |lia].
      * rewrite Nat.add_0_r, Nat.eqb_refl. replace (Nat.eqb (r * 2 + 1) (r * 2)) with false by (symmetry; apply Nat.eqb_neq; lia). reflexivity.
      * rewrite Nat.eqb_refl. replace (Nat.eqb (r * 2) (r * 2 + 1)) with false by (symmetry; apply Nat.eqb_neq; lia). reflexivity.
    + assert (c = 0) as -> by lia. replace (r * 1 + 0) with r by lia. rewrite Nat.eqb_refl. reflexivity.
    + assert (c = 0) as -> by lia. replace (r * 1 + 0) with r by lia. rewrite Nat.eqb_refl. reflexivity.
    + assert (c = 0) as -> by lia. replace (r * 1 + 0) with r by lia. rewrite Nat.eqb_refl. reflexivity.
  - apply Nat.eqb_neq in E. rewrite app_nil_r. destruct uc, ui; cbn [andb] in *; cbn [on_subplot flat_map].
    + replace (Nat.eqb (mi * 2) (r * 2 + c)) with false by (symmetry; apply Nat.eqb_neq; lia). replace (Nat.eqb (mi * 2 + 1) (r * 2 + c)) with false by (symmetry; apply Nat.eqb_neq; lia). reflexivity.
    + replace (Nat.eqb mi (r * 1 + c)) with false by (symmetry; apply Nat.eqb_neq; lia). reflexivity.
    + replace (Nat.eqb mi (r * 1 + c)) with false by (symmetry; apply Nat.eqb_neq; lia). reflexivity.
    + replace (Nat.eqb mi (r * 1 + c)) with false by (symmetry; apply Nat.eqb_neq; lia). reflexivity.
Qed.
Lemma on_row metrics algs uc ui r c : c < columns uc ui ->
  on_subplot (r * columns uc ui + c) (drawn metrics algs uc ui) = match nth_error metrics r with Some m => map (fun a => (m, column_axis uc ui c, a)) algs | None => [] end.
Proof.
  intros H. unfold drawn. rewrite on_flat. rewrite <- (at_place (fun m => map (fun a => (m, column_axis uc ui c, a)) algs) r metrics 0). apply flat_map_ext. intros [mi m]. now apply inner.
Qed.
Lemma row_major r c k : c < k -> (r * k + c) / k = r /\ (r * k + c) mod k = c.
Proof. intro H. split; [rewrite Nat.div_add_l by lia; rewrite Nat.div_small by lia; lia|]. rewrite Nat.add_comm, Nat.mod_add by lia. now apply Nat.mod_small. Qed.

Lemma nth_subplot metrics uc ui r c m : nth_error metrics r = Some m -> c < columns uc ui -> uc || ui = true ->
  nth_error (create_metric_subplots metrics uc ui) (r * columns uc ui + c) =
  Some (mkSub (if Nat.eqb r (List.length metrics - 1) then Some (column_axis uc ui c) else None) (if Nat.eqb c 0 then Some (pm_name m) else None) (pm_xlog m) (pm_ylog m)).
Proof.
  intros M H O. assert (R : r < List.length metrics) by (apply nth_error_Some; congruence). unfold create_metric_subplots. rewrite n_cols_columns.
  assert (B : r * columns uc ui + c < List.length metrics * columns uc ui) by nia.
  rewrite nth_error_map, (nth_error_nth' _ 0) by now rewrite seq_length. rewrite seq_nth by exact B. cbn [option_map Nat.add].
  destruct (row_major r c _ H) as [D1 D2]. rewrite D1, D2. rewrite (nth_error_nth _ _ no_metric M).
  assert (Q : ceil_div (List.length metrics * columns uc ui) (columns uc ui) = List.length metrics).
  { unfold ceil_div. rewrite Nat.div_add_l by lia. rewrite Nat.div_small by lia. lia. }
  rewrite Q. do 2 f_equal. destruct (Nat.eqb r (List.length metrics - 1)); [|reflexivity]. f_equal. unfold columns in *.
  destruct uc, ui; cbn [andb orb] in *; cbn [Nat.eqb column_axis]; try discriminate; try reflexivity.
  rewrite D2. destruct c as [|[|c]]; [reflexivity|reflexivity|lia].
Qed.

Theorem C109_subplots metrics algs uc ui r c m :
  uc || ui = true -> nth_error metrics r = Some m -> c < columns uc ui ->
  let i := r * columns uc ui + c in
  on_subplot i (drawn metrics algs uc ui) = map (fun a => (m, column_axis uc ui c, a)) algs
  /\ exists s, nth_error (create_metric_subplots metrics uc ui) i = Some s
     /\ sp_ylabel s = (if Nat.eqb c 0 then Some (pm_name m) else None)
     /\ sp_xlabel s = (if Nat.eqb (S r) (List.length metrics) then Some (column_axis uc ui c) else None)
     /\ sp_xlog s = pm_xlog m /\ sp_ylog s = pm_ylog m.
Proof.
  intros O M H i. split; [unfold i; rewrite on_row by exact H; now rewrite M|]. eexists. split; [exact (nth_subplot _ _ _ _ _ _ M H O)|]. cbn [sp_ylabel sp_xlabel sp_xlog sp_ylog]. repeat split.
  assert (r < List.length metrics) by (apply nth_error_Some; congruence). destruct (Nat.eqb_spec r (List.length metrics - 1)), (Nat.eqb_spec (S r) (List.length metrics)); try reflexivity; lia.
Qed.
Definition pmA := mkPM "regret" true false true. Definition pmB := mkPM "gap" false true false.
Example C109_subplots_case :
  on_subplot 3 (drawn [pmA; pmB] ["dgd"; "atc"]%string true true) = [(pmB, Iterations, "dgd"%string); (pmB, Iterations, "atc"%string)]
  /\ nth_error (create_metric_subplots [pmA; pmB] true true) 3 = Some (mkSub (Some Iterations) None false true)
  /\ nth_error (create_metric_subplots [pmA; pmB] true true) 0 = Some (mkSub None (Some "regret"%string) true false).
Proof. split; [|split]; reflexivity. Qed.

(** The grid has one subplot for every metric and abscissa, nothing is drawn outside
    it, and every algorithm is drawn once for every metric and abscissa. *)
Lemma length_per_metric metrics algs uc ui : forall s,
  List.length (flat_map (fun p : nat * pmetric => let '(mi, m) := p in flat_map (fun a : string => if uc && ui then [(mi * 2, m, Cost, a); (mi * 2 + 1, m, Iterations, a)] else [(mi, m, if uc then Cost else Iterations, a)]) algs) (combine (seq s (List.length metrics)) metrics))
  = List.length metrics * (List.length algs * columns uc ui).
Proof.
  induction metrics as [|m ms IH]; intro s; [reflexivity|]. cbn [List.length seq combine flat_map]. rewrite app_length, IH. cbn [Nat.mul]. f_equal.
  clear. unfold columns. induction algs as [|a algs IH]; [reflexivity|]. cbn [flat_map List.length]. rewrite app_length, IH. destruct (uc && ui); cbn [List.length]; lia.
Qed.
Theorem C109_grid metrics algs uc ui :
  List.length (create_metric_subplots metrics uc ui) = List.length metrics * columns uc ui
  /\ List.length (drawn metrics algs uc ui) = List.length metrics * (List.length algs * columns uc ui)
  /\ forall i m x a, In (i, m, x, a) (drawn metrics algs uc ui) -> i < List.length metrics * columns uc ui /\ In m metrics /\ In a algs.
Proof.
  split; [unfold create_metric_subplots; now rewrite map_length, seq_length|]. split; [apply length_per_metric|].
  intros i m x a I. unfold drawn in I. apply in_flat_map in I. destruct I as ([mi m'] & I & J). pose proof (in_combine_l _ _ _ _ I) as I1. apply in_combine_r in I. apply in_seq in I1.
  apply in_flat_map in J. destruct J as (a' & Ia & J). unfold columns. revert J. destruct (uc && ui); intro J; cbn in J; [destruct J as [E|[E|[]]]|destruct J as [E|[]]]; injection E as <- <- _ <-; (split; [idtac|split; assumption]). all: lia.
Qed.
Example C109_grid_case : List.length (drawn [pmA; pmB] ["dgd"; "atc"; "gt"]%string true false) = 6. Proof. reflexivity. Qed.

(** ** Legends *)
Lemma in_legend_visible a : in_legend a = true <-> visible a.
Proof.
  unfold visible, in_legend. destruct a as [|ch a]; [split; [discriminate|intros [H _]; now destruct H]|]. destruct (Ascii.eqb_spec ch "_") as [->|N]; cbn.
  - split; [discriminate|intros [_ H]; now destruct (H a)].
  - split; [intros _; split; [discriminate|intros s E; now injection E]|reflexivity].
Qed.
Lemma columns_pos u v : 0 < columns u v. Proof. unfold columns. destruct (u && v); lia. Qed.
Lemma row_labels g algs uc ui i : i < List.length g * columns uc ui -> map snd (on_subplot i (drawn g algs uc ui)) = algs.
Proof.
  intro H. pose proof (columns_pos uc ui) as P. assert (E : i = i / columns uc ui * columns uc ui + i mod columns uc ui) by (rewrite Nat.mul_comm; apply Nat.div_mod; lia).
  rewrite E, on_row by (apply Nat.mod_upper_bound; lia). destruct (nth_error g (i / columns uc ui)) eqn:M.
  - rewrite map_map. cbn. apply map_id.
  - apply nth_error_None in M. assert (i / columns uc ui < List.length g) by (apply Nat.div_lt_upper_bound; lia). lia.
Qed.
Lemma labels_repeat g algs uc ui : labels_of g algs uc ui = repeat algs (List.length g * columns uc ui).
Proof.
  unfold labels_of. rewrite n_cols_columns. rewrite (map_ext_in _ (fun _ => algs)) by (intros i I; apply row_labels; apply in_seq in I; lia).
  generalize 0 at 1. induction (List.length g * columns uc ui) as [|n IH]; intro s; [reflexivity|]. cbn. now rewrite IH.
Qed.
Lemma legend_repeat algs n : legend_labels (repeat algs n) = match n with 0 => [] | _ => filter in_legend algs end.
Proof. induction n as [|n IH]; [reflexivity|]. cbn. destruct (filter in_legend algs) eqn:E; [rewrite IH; now destruct n|reflexivity]. Qed.
Lemma legend_of g algs uc ui : g <> [] -> legend_labels (labels_of g algs uc ui) = filter in_legend algs.
Proof. intro H. rewrite labels_repeat, legend_repeat. destruct g; [now destruct H|]. pose proof (columns_pos uc ui). cbn [List.length Nat.mul]. destruct (columns uc ui); [lia|reflexivity]. Qed.

(** A figure's legend lists the algorithms in order, once each, those without a name
    that can appear left out. *)
Theorem C109_legend g algs uc ui : g <> [] ->
  (forall a, In a (legend_labels (labels_of g algs uc ui)) <-> In a algs /\ visible a)
  /\ (Forall visible algs -> legend_labels (labels_of g algs uc ui) = algs).
Proof.
  intro H. rewrite legend_of by exact H. split; [intro a; rewrite filter_In; now rewrite in_legend_visible|].
  induction 1 as [|a algs' V _ IH]; [reflexivity|]. cbn. apply in_legend_visible in V. now rewrite V, IH.
Qed.
Example C109_legend_case : legend_labels (labels_of [pmA; pmB] ["dgd"; "_tmp"; "gt"]%string true true) = ["dgd"; "gt"]%string. Proof. reflexivity. Qed.
Theorem C109_legend_refuted : ~ forall g algs uc ui, g <> [] -> legend_labels (labels_of g algs uc ui) = algs.
Proof. intro H. specialize (H [pmA] ["_tmp"]%string true true ltac:(discriminate)). discriminate H. Qed.

(** ** Files and windows *)
Lemma has_label g algs uc ui : g <> [] -> existsb (fun s => negb (Nat.eqb (List.length (filter in_legend s)) 0)) (labels_of g algs uc ui) = negb (Nat.eqb (List.length (filter in_legend algs)) 0).
Proof.
  intro H. rewrite labels_repeat. destruct g; [now destruct H|]. pose proof (columns_pos uc ui). cbn [List.length Nat.mul]. destruct (columns uc ui) as [|k]; [lia|]. cbn [Nat.add repeat existsb].
  destruct (negb _) eqn:E; [reflexivity|]. cbn [orb]. induction (k + List.length g * S k); [reflexivity|]. cbn [repeat existsb]. now rewrite E.
Qed.
Lemma filter_all {A} (f : A -> bool) l : (forall x, In x l -> f x = true) -> filter f l = l.
Proof. induction l as [|x l IH]; intro H; [reflexivity|]. cbn. rewrite H by now left. rewrite IH; [reflexivity|intros; apply H; now right]. Qed.
Lemma filter_none {A} (f : A -> bool) l : (forall x, In x l -> f x = false) -> filter f l = [].
Proof. induction l as [|x l IH]; intro H; [reflexivity|]. cbn. rewrite H by now left. apply IH. intros; apply H; now right. Qed.
Lemma visible_count algs : Exists visible algs <-> Nat.eqb (List.length (filter in_legend algs)) 0 = false.
Proof.
  rewrite Nat.eqb_neq. split.
  - intros E. apply Exists_exists in E. destruct E as (a & I & V). apply in_legend_visible in V. assert (J : In a (filter in_legend algs)) by now apply filter_In. destruct (filter in_legend algs); [destruct J|cbn; lia].
  - intros N. apply Exists_exists. destruct (filter in_legend algs) as [|a q] eqn:E; [now destruct N|]. assert (J : In a (filter in_legend algs)) by (rewrite E; now left). apply filter_In in J. exists a. split; [apply J|apply in_legend_visible, J].
Qed.

(** The legend of a figure is a figure of its own: the algorithms named are nine or
    more, or six with a name longer than 24 characters. *)
Definition own_legend (algs : list string) : bool := fst (fst (legend_mode (filter in_legend algs))).
Lemma figures_full groups algs uc ui save show : Forall (fun g => g <> []) groups -> groups <> [] -> Exists visible algs ->
  figures groups algs uc ui save show =
  (let number := fun i => if Nat.ltb 1 (List.length groups) then Some (S i) else None in
   mkShown (if save then flat_map (fun p : nat * list pmetric => let '(i, g) := p in (Plot (number i), Figure_of g) :: (if own_legend algs then [(Legend (number i), Legend_of g)] else [])) (combine (seq 0 (List.length groups)) groups) else [])
     (if show then [] else if own_legend algs then map Legend_of groups else []) false).
Proof.
  intros F N V. apply visible_count in V. rewrite Forall_forall in F. unfold figures.
  rewrite filter_all by (intros g I; rewrite has_label by (now apply F); now rewrite V).
  rewrite (filter_none (fun g => negb _)) by (intros g I; rewrite has_label by (now apply F); now rewrite V).
  destruct groups as [|g0 gs]; [now destruct N|]. cbv zeta. f_equal.
  - destruct save; [|reflexivity]. rewrite !flat_map_concat_map. f_equal. apply map_ext_in. intros [i g] I. apply in_combine_r in I. rewrite legend_of by (now apply F). reflexivity.
  - destruct show; [reflexivity|]. cbn [map app]. destruct (own_legend algs) eqn:O.
    + rewrite filter_all; [reflexivity|]. intros g I. rewrite legend_of by (now apply F). exact O.
    + rewrite filter_none; [reflexivity|]. intros g I. rewrite legend_of by (now apply F). exact O.
Qed.

Lemma visible_labels algs : Forall visible algs -> filter in_legend algs = algs.
Proof. intro F. apply filter_all. intros a I. apply in_legend_visible. rewrite Forall_forall in F. now apply F. Qed.

Definition is_plot (f : file) : bool := match f with Plot _ => true | Legend _ => false end.
Lemma number_inj n i j : i < n -> j < n -> (if Nat.ltb 1 n then Some (S i) else None) = (if Nat.ltb 1 n then Some (S j) else None) -> i = j.
Proof. destruct (Nat.ltb_spec 1 n); intros; [congruence|lia]. Qed.

Section saved.
  Variables (number : nat -> option nat) (own : bool).
  Let entry (p : nat * list pmetric) := let '(i, g) := p in (Plot (number i), Figure_of g) :: (if own then [(Legend (number i), Legend_of g)] else []).
  Lemma plots_of gs : forall s, filter (fun q => is_plot (fst q)) (flat_map entry (combine (seq s (List.length gs)) gs)) = map (fun p => (Plot (number (fst p)), Figure_of (snd p))) (combine (seq s (List.length gs)) gs).
  Proof.
    induction gs as [|g gs IH]; intro s; [reflexivity|]. cbn [List.length seq combine flat_map map]. rewrite filter_app, IH. cbn [entry fst snd]. destruct own; reflexivity.
  Qed.
  Lemma legends_of k g gs : In (Legend k, Legend_of g) (flat_map entry gs) <-> own = true /\ In (Plot k, Figure_of g) (flat_map entry gs).
  Proof.
    induction gs as [|[i g'] gs IH]; [split; [intros []|intros [_ []]]|]. cbn [flat_map]. rewrite !in_app_iff, IH. cbn [entry]. split.
    - intros [[E|I]|[O I]]; [discriminate E| |split; [exact O|now right]]. destruct own; [|destruct I]. destruct I as [E|[]]. injection E as <- <-. split; [reflexivity|]. left. now left.
    - intros [O [[E|I]|I]]; [|destruct own; [destruct I as [E|[]]; discriminate E|destruct I]|right; now split]. injection E as <- <-. left. right. rewrite O. now left.
  Qed.
  Lemma names_nodup n gs : (forall i j, i < n -> j < n -> number i = number j -> i = j) -> forall s, s + List.length gs <= n ->
    NoDup (map fst (flat_map entry (combine (seq s (List.length gs)) gs)))
    /\ forall f, In f (map fst (flat_map entry (combine (seq s (List.length gs)) gs))) -> exists j, s <= j < s + List.length gs /\ (f = Plot (number j) \/ f = Legend (number j)).
  Proof.
    intro J. induction gs as [|g gs IH]; intros s H; [split; [constructor|intros f []]|]. cbn [List.length seq combine flat_map] in *. destruct (IH (S s) ltac:(lia)) as [N B].
    rewrite map_app. split.
    - assert (A : forall f, In f (map fst (flat_map entry (combine (seq (S s) (List.length gs)) gs))) -> f <> Plot (number s) /\ f <> Legend (number s)).
      { intros f I. destruct (B f I) as (j & Hj & [->| ->]); split; intro E; try discriminate E; injection E as E; apply J in E; lia. }
      cbn [entry]. destruct own; cbn [map fst app]; repeat constructor.
      + cbn. intros [E|I]; [discriminate E|]. now destruct (A _ I).
      + intro I. now destruct (A _ I).
      + exact N.
      + intro I. now destruct (A _ I).
      + exact N.
    - intros f I. apply in_app_iff in I. destruct I as [I|I].
      + exists s. split; [lia|]. cbn [entry] in I. destruct own; cbn in I; intuition.
      + destruct (B f I) as (j & Hj & E). exists j. split; [lia|exact E].
  Qed.
End saved.

(** With a directory, every figure is saved in order as [plot] (one figure) or
    [plot_fig1], [plot_fig2], ...; a legend of its own is saved beside its figure;
    no two files have the same name. *)
Theorem C109_files groups algs uc ui show :
  Forall (fun g => g <> []) groups -> groups <> [] -> Forall visible algs -> algs <> [] ->
  let r := figures groups algs uc ui true show in
  filter (fun q => is_plot (fst q)) (s_files r) = match groups with [g] => [(Plot None, Figure_of g)] | _ => map (fun p => (Plot (Some (S (fst p))), Figure_of (snd p))) (combine (seq 0 (List.length groups)) groups) end
  /\ (forall k g, In (Legend k, Legend_of g) (s_files r) <-> fst (fst (legend_mode algs)) = true /\ In (Plot k, Figure_of g) (s_files r))
  /\ NoDup (map fst (s_files r)) /\ s_warned r = false.
Proof.
  intros F N V A r.
  assert (E : Exists visible algs) by (destruct algs; [now destruct A|apply Exists_cons; left; now inversion V]).
  unfold r. rewrite figures_full by assumption. cbv zeta. cbn [s_files s_warned]. rewrite plots_of. split; [|split; [|split]].
  - destruct groups as [|g [|g' gs]]; [now destruct N|reflexivity|]. cbn [List.length]. reflexivity.
  - intros k g. rewrite legends_of. unfold own_legend. now rewrite visible_labels.
  - apply (names_nodup _ _ (List.length groups)); [|lia]. intros i j. apply number_inj.
  - reflexivity.
Qed.
Example C109_files_case :
  map fst (s_files (figures [[pmA]; [pmB]] ["dgd"; "gt"]%string true false true true)) = [Plot (Some 1); Plot (Some 2)]
  /\ map fst (s_files (figures [[pmA]; [pmB]] ["1"; "2"; "3"; "4"; "5"; "6"; "7"; "8"; "9"]%string true false true true)) = [Plot (Some 1); Legend (Some 1); Plot (Some 2); Legend (Some 2)].
Proof. split; reflexivity. Qed.

(** Without a directory nothing is saved; when no algorithm has a name that can appear
    in a legend nothing is saved either, and a warning is given. *)
Theorem C109_nothing_saved groups algs uc ui show :
  s_files (figures groups algs uc ui false show) = []
  /\ (Forall (fun g => g <> []) groups -> ~ Exists visible algs -> forall save, s_files (figures groups algs uc ui save show) = [] /\ s_warned (figures groups algs uc ui save show) = true).
Proof.
  split; [unfold figures; destruct (filter _ groups); reflexivity|]. intros F V save. assert (Z : Nat.eqb (List.length (filter in_legend algs)) 0 = true) by (destruct (Nat.eqb _ 0) eqn:E; [reflexivity|]; apply visible_count in E; contradiction).
  rewrite Forall_forall in F. unfold figures. rewrite filter_none by (intros g I; rewrite has_label by (now apply F); now rewrite Z). split; reflexivity.
Qed.
Example C109_nothing_saved_case : s_warned (figures [[pmA]] ["_dgd"]%string true false true true) = true. Proof. reflexivity. Qed.

(** When the plots are not shown, no figure stays open, as long as the legends are
    drawn in their figures and some algorithm can be named. *)
Theorem C109_closed groups algs uc ui save :
  Forall (fun g => g <> []) groups -> groups <> [] -> Forall visible algs -> algs <> [] -> List.length algs < 6 ->
  s_open (figures groups algs uc ui save false) = [].
Proof.
  intros F N V A L. assert (E : Exists visible algs) by (destruct algs; [now destruct A|apply Exists_cons; left; now inversion V]).
  rewrite figures_full by assumption. cbn [s_open]. unfold own_legend. rewrite visible_labels by exact V. unfold legend_mode. cbn [fst].
  destruct algs as [|a1 [|a2 [|a3 [|a4 [|a5 [|a6 q]]]]]]; [now destruct A| | | | |cbn; now rewrite ?andb_false_r|cbn in L; lia]; cbn; now rewrite ?andb_false_r.
Qed.
Example C109_closed_case : s_open (figures [[pmA]; [pmB]] ["dgd"; "gt"]%string true false true false) = []. Proof. reflexivity. Qed.
(** Otherwise windows stay open: the legends' own figures are never closed, and none
    is when nothing can be plotted. *)
Theorem C109_closed_refuted :
  (exists algs, Forall visible algs /\ s_open (figures [[pmA]] algs true false true false) = [Legend_of [pmA]])
  /\ s_open (figures [[pmA]; [pmB]] ["_dgd"]%string true false true false) = [Figure_of [pmA]; Figure_of [pmB]].
Proof.
  split; [|reflexivity]. exists ["1"; "2"; "3"; "4"; "5"; "6"; "7"; "8"; "9"]%string. split; [|reflexivity].
  apply Forall_forall. intros a I. apply in_legend_visible. cbn in I. repeat (destruct I as [<-|I]; [reflexivity|]). destruct I.
Qed.

Print Assumptions C109_subplots.
Print Assumptions C109_grid.
Print Assumptions C109_legend.
Print Assumptions C109_legend_refuted.
Print Assumptions C109_files.
Print Assumptions C109_nothing_saved.
Print Assumptions C109_closed.
Print Assumptions C109_closed_refuted.
