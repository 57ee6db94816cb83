(** The convergence-rate estimate of decent_bench/metrics/utils.py:340-508:
    [linear_convergence_rate], [fit_elbow_curve] and the least-squares fit for
    one breakpoint.  Floats are real numbers (so no rounding, in particular the
    points of [np.linspace] are rounded down exactly); non-finite inputs are
    kept apart by [fval]. *)
From Coq Require Import Reals List Bool Arith ZArith.
From Verif.Model Require Import History Vec Metrics.
Import ListNotations.
Local Open Scope R_scope.

(** utils.py:483-493, the regression matrix [R]: rows [(0,1) .. (b,1)] and then
    [m-b-1] rows [(b,1)]. *)
Definition design (m b : nat) : list (R * R) :=
  map (fun j => (INR j, 1)) (seq 0 (b + 1)) ++ repeat (INR b, 1) (m - b - 1).

(** utils.py:496-500, [S_00], [S_01], [S_11] and the determinant dividing the
    adjugate. *)
Definition s00 (m b : nat) : R :=
  INR b * (INR b + 1) * (2 * INR b + 1) / 6 + (INR m - INR b - 1) * (INR b * INR b).
Definition s01 (m b : nat) : R := INR b * (INR b + 1) / 2 + (INR m - INR b - 1) * INR b.
Definition s11 (m b : nat) : R := INR m.
Definition sdet (m b : nat) : R := s00 m b * s11 m b - s01 m b * s01 m b.

(** utils.py:462-508 [_fit_elbow_curve_given_breakpoint]: slope, intercept and
    residual.  [np.ones((m-b-1, 1))] raises ValueError when [m < b+1]. *)
Definition fit_given (y : list R) (b : nat) : res (R * R * R) :=
  let m := length y in
  if (m <? b + 1)%nat then ValueError else
  let rows := combine (design m b) y in
  let ry0 := rsum (map (fun p => fst (fst p) * snd p) rows) in
  let ry1 := rsum (map (fun p => snd (fst p) * snd p) rows) in
  let slope := s11 m b / sdet m b * ry0 + - s01 m b / sdet m b * ry1 in
  let icept := - s01 m b / sdet m b * ry0 + s00 m b / sdet m b * ry1 in
  let r := map (fun p => fst (fst p) * slope + snd (fst p) * icept - snd p) rows in
  Ok (slope, icept, sqrt (rsum (map (fun v => v * v) r))).

(** utils.py:440, [np.linspace(b_1, b_2, num, dtype=int)] (numpy rounds down). *)
Definition linspace_int (b1 b2 num : nat) : list nat :=
  map (fun i => b1 + i * (b2 - b1) / (num - 1))%nat (seq 0 num).

(** utils.py:448, [np.argmin]: the first index of a smallest entry. *)
Fixpoint argmin_from (i : nat) (bi : nat) (bv : R) (l : list R) : nat :=
  match l with
  | [] => bi
  | v :: l' => if Rlt_dec v bv then argmin_from (S i) i v l' else argmin_from (S i) bi bv l'
  end.
Definition argmin (l : list R) : nat :=
  match l with [] => 0%nat | v :: l' => argmin_from 1 0 v l' end.

Section Search.
  Variables (y : list R) (num : nat) (tol : R).

  (** utils.py:435-459: the loop over [max_trials]; [best] is [None] while
      [best_res] is infinite. *)
  Fixpoint search (trials b1 b2 : nat) (best : option R) : res (R * R * nat) :=
    match trials with
    | O => ValueError (* not reached: max_trials is at least 1 *)
    | S k =>
      let grid := linspace_int b1 b2 num in
      rbind (mapR (fit_given y) grid) (fun fits =>
        let i := argmin (map snd fits) in
        let f := nth i fits (0, 0, 0) in
        let out := (snd (fst f), fst (fst f), (nth i grid 0 - 1)%nat) in
        let b1' := nth (Nat.max 0 (i - 1)) grid 0%nat in
        let b2' := nth (Nat.min (num - 1) (i + 1)) grid 0%nat in
        if match best with None => false | Some r => if Rlt_dec (r - snd f) tol then true else false end then Ok out
        else match k with O => Ok out | S _ => search k b1' b2' (Some (snd f)) end)
    end.
End Search.

(** utils.py:425-426, [y[np.isfinite(y)]]. *)
Definition finite_part (y : list fval) : list R :=
  flat_map (fun v => match v with Fin r => [r] | _ => [] end) y.

(** utils.py:372-459 [fit_elbow_curve]: intercept, slope, breakpoint. *)
Definition fit_elbow_curve (y : list fval) (max_trials : nat) (tol : R) (num : nat) : res (R * R * nat) :=
  if (length y <? 2)%nat then ValueError else
  if (max_trials <? 1)%nat then ValueError else
  if Rlt_dec tol 0 then ValueError else
  if (num <? 2)%nat then ValueError else
  let yf := finite_part y in
  search yf num tol max_trials 1 (length yf - 1) None.

(** [np.log10] on one entry (utils.py:366). *)
Definition log10f (v : fval) : fval :=
  match v with
  | Fin r => if Rlt_dec 0 r then Fin (ln r / ln 10) else if Req_EM_T r 0 then NInf else NaN
  | PInf => PInf
  | _ => NaN
  end.

(** utils.py:340-369 [linear_convergence_rate]. *)
Definition linear_convergence_rate (y : list fval) : res R :=
  rbind (fit_elbow_curve (map log10f y) 10 (1 / 100000) 10) (fun r => Ok (Rpower 10 (snd (fst r)))).
