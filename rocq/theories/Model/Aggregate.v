(** Aggregation of metric data: [aggregate_plot_metrics]
    (decent_bench/benchmark/_compute/compute_plots.py:50-80) and
    [aggregate_table_metrics] with the choice of statistics
    (compute_tables.py:18-56 and 101-152), for one metric.  What pandas and numpy
    return for groups with infinite or NaN values is a parameter ([odd]); pandas
    sorts the groups, here they come in order of first appearance. *)
From Coq Require Import Reals List Bool Arith ZArith String.
From Verif.Model Require Import PyDict History Vec Metrics.
Import ListNotations.
Local Open Scope R_scope.

(** pandas' [groupby]: the values of every key, in row order *)
Definition group {K V} (keqb : K -> K -> bool) (l : list (K * V)) : list (K * list V) :=
  fold_left (fun d p => dset keqb d (fst p) (match dget keqb d (fst p) with Some vs => vs ++ [snd p] | None => [snd p] end)) l [].

Definition pair_eqb {A B} (ea : A -> A -> bool) (eb : B -> B -> bool) (p q : A * B) : bool :=
  ea (fst p) (fst q) && eb (snd p) (snd q).

(** ** Statistics on finite values *)
(** [np.mean] *)
Definition ravg (l : list R) : R := rsum l / INR (List.length l).
(** [np.max], [np.min] (of a non-empty list) *)
Definition rmax (l : list R) : R := match l with [] => 0 | x :: l' => fold_left Rmax l' x end.
Definition rmin (l : list R) : R := match l with [] => 0 | x :: l' => fold_left Rmin l' x end.
(** standard deviation with [ddof] degrees of freedom less *)
Definition rstd (ddof : nat) (l : list R) : R :=
  sqrt (rsum (map (fun x => (x - ravg l) * (x - ravg l)) l) / INR (List.length l - ddof)).
(** [np.median]: middle of the sorted list, or the mean of the two middle ones *)
Fixpoint rinsert (x : R) (l : list R) : list R :=
  match l with [] => [x] | y :: l' => if Rle_dec x y then x :: l else y :: rinsert x l' end.
Definition rsort (l : list R) : list R := fold_right rinsert [] l.
Definition rmedian (l : list R) : R :=
  let s := rsort l in let n := List.length l in
  if Nat.even n then (nth (n / 2 - 1) s 0 + nth (n / 2) s 0) / 2 else nth (n / 2) s 0.

(** finite values, if all are *)
Fixpoint finites (l : list fval) : option (list R) :=
  match l with
  | [] => Some []
  | Fin r :: l' => match finites l' with Some rs => Some (r :: rs) | None => None end
  | _ => None
  end.

Section Agg.
  Context {Alg : Type} (aeqb : Alg -> Alg -> bool).
  (** [astype("float32")], compute_plots.py:74, compute_tables.py:145 *)
  Variable to32 : fval -> fval.
  (** results on groups that are not all finite *)
  Variable odd : string -> list fval -> fval.
  (** pandas replaces [np.std] passed to [agg] by its own [std] with ddof 1
      in some versions: the number is left open *)
  Variable ddof : nat.

  Definition stat (name : string) (f : list R -> R) (l : list fval) : fval :=
    match finites l with Some rs => Fin (f rs) | None => odd name l end.

  (** [aggregate_plot_metrics], compute_plots.py:61-75, one frame:
      (algorithm, iteration, mean, min, max) *)
  Definition aggregate_plot (f : list (row Alg)) : list (Alg * Z * (fval * fval * fval)) :=
    let by_trial := group (pair_eqb (pair_eqb aeqb Nat.eqb) Z.eqb) (map (fun w => ((w_alg w, w_trial w, w_iter w), w_value w)) f) in
    let means := map (fun p => ((fst (fst (fst p)), snd (fst p)), stat "mean" ravg (snd p))) by_trial in
    map (fun p => (fst p, (to32 (stat "mean" ravg (snd p)), to32 (stat "min" rmin (snd p)), to32 (stat "max" rmax (snd p)))))
      (group (pair_eqb aeqb Z.eqb) means).

  (** [STATISTICS], compute_tables.py:18-24 *)
  Definition statistics : list (string * (list R -> R)) :=
    [("mean", ravg); ("std", rstd ddof); ("max", rmax); ("min", rmin); ("median", rmedian)]%string.
  (** [STATISTICS_ALIASES.get(stat, stat)], compute_tables.py:25-31 and 42 *)
  Definition alias (s : string) : string :=
    (if String.eqb s "average" then "mean" else if String.eqb s "avg" then "mean"
     else if String.eqb s "maximum" then "max" else if String.eqb s "minimum" then "min"
     else if String.eqb s "mdn" then "median" else s)%string.
  Definition default_statistics : list (string * (list R -> R)) := [("mean", ravg); ("std", rstd ddof)]%string.

  (** [_resolve_statistics], compute_tables.py:34-56 *)
  Definition resolve_statistics (names : option (list string)) : list (string * (list R -> R)) :=
    match names with
    | None => default_statistics
    | Some l =>
      let resolved := filter (fun s => dmem String.eqb statistics s) (map alias l) in
      match resolved with
      | [] => default_statistics
      | _ => fold_left (fun d s => match dget String.eqb statistics s with Some f => dset String.eqb d s f | None => d end) resolved []
      end
    end.

  Fixpoint distinct (l : list nat) : list nat :=
    match l with [] => [] | x :: l' => x :: filter (fun y => negb (Nat.eqb x y)) (distinct l') end.

  (** [aggregate_table_metrics], compute_tables.py:112-147, one frame:
      (algorithm, statistic, mean, std) *)
  Definition aggregate_table (names : option (list string)) (f : list (table_row Alg)) : list (Alg * string * (fval * fval)) :=
    let stats := resolve_statistics names in
    let rows : list (Alg * string * fval) :=
      if Nat.eqb (List.length (distinct (map (fun w => snd (fst w)) f))) 1
      then map (fun w => ((fst (fst (fst w)), ""%string), snd w)) f
      else flat_map (fun st => map (fun p => ((fst (fst p), fst st), stat (fst st) (snd st) (snd p)))
             (group (pair_eqb aeqb Nat.eqb) (map (fun w => (fst (fst w), snd w)) f))) stats in
    map (fun p => (fst p, (to32 (stat "mean" ravg (snd p)), to32 (stat "std" (rstd 0) (snd p)))))
      (group (pair_eqb aeqb String.eqb) rows).
End Agg.
