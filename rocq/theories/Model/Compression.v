(** Model of compression schemes: /repo/decent_bench/schemes.py:471-670.

    Arrays are flattened to lists of exact reals (no float rounding, NaN or
    infinities; the reshape to and from one dimension is the identity on the
    entries, framework conversions of [iop] are the identity). Flocq's [Zfloor]
    and [ZnearestE] are floor and round-half-to-even. *)
From Coq Require Import List Bool Arith ZArith QArith Qround Reals.
From Flocq Require Import Core.Raux Core.Generic_fmt Core.Round_NE.
From Verif.Model Require Import Schemes.
Import ListNotations.
Open Scope R_scope.

(** [CompressionScheme.compressed_msg_size], schemes.py:478-480: number of
    elements; used by NoCompression, Quantization and StochasticQuantization *)
Definition default_size (msg : list R) : Z := Z.of_nat (length msg).

(** [NoCompression.compress], 486-487 *)
Definition no_compress (msg : list R) : list R := msg.

(** [Quantization], 505-512 *)
Definition quant_init (step : R) : option R := if Rle_dec step 0 then None else Some step.
Definition quant (step : R) (msg : list R) : list R :=
  map (fun v => step * IZR (ZnearestE (v / step))) msg.

(** [StochasticQuantization], 558-578. [us]: the uniform draws, one per entry. *)
Definition norm2 (msg : list R) : R := sqrt (fold_right (fun v s => v * v + s) 0 msg).
Definition sgn (v : R) : R := if Rlt_dec v 0 then -1 else if Rlt_dec 0 v then 1 else 0.
Definition sq_level (s : Z) (norm v u : R) : Z :=
  let a := IZR s * Rabs v / norm in
  let lower := Zfloor a in
  let p := a - IZR lower in
  (lower + if Rlt_dec u p then 1 else 0)%Z.
Definition sq_entry (s : Z) (norm v u : R) : R := norm * sgn v * IZR (sq_level s norm v u) / IZR s.
Definition squant_init (n_levels : Z) : option Z := if (n_levels <=? 0)%Z then None else Some n_levels.
Definition squant (s : Z) (msg us : list R) : list R :=
  let norm := norm2 msg in
  if Req_EM_T norm 0 then map (fun _ => 0) msg
  else map (fun vu => sq_entry s norm (fst vu) (snd vu)) (combine msg us).

(** [TopK.__init__] / [RandK.__init__], 600-608 and 646-654 *)
Inductive kparam := KInt (k : Z) | KFrac (f : Q).
Definition k_init (k : kparam) : option kparam :=
  match k with
  | KInt k' => if (k' <? 1)%Z then None else Some k
  | KFrac f => if Qle_bool f 0 || Qltb 1 f then None else Some k
  end.
(** [k_count], 613 and 659 *)
Definition k_count (k : kparam) (n : nat) : nat :=
  match k with
  | KInt k' => Nat.min (Z.to_nat k') n
  | KFrac f => Nat.max 1 (Z.to_nat (Qceiling (f * inject_Z (Z.of_nat n))))
  end.
(** [compressed_msg_size], 622-624 and 668-670 *)
Definition k_size (k : kparam) (msg : list R) : Z :=
  match k with
  | KInt k' => k'
  | KFrac f => Qceiling (f * inject_Z (Z.of_nat (length msg)))
  end.
(** 617-618 and 663-664: zeros except at the positions [idx] *)
Definition keep (idx : list nat) (msg : list R) : list R :=
  map (fun i => if existsb (Nat.eqb i) idx then nth i msg 0 else 0) (seq 0 (length msg)).
(** [TopK.compress], 610-620; [part] is the result of
    [np.argpartition(|msg|, -k)]; None = exception (empty message: kth out of bounds) *)
Definition topk (k : kparam) (part : list nat) (msg : list R) : option (list R) :=
  match msg with
  | [] => None
  | _ => Some (keep (skipn (length msg - k_count k (length msg)) part) msg)
  end.
(** [RandK.compress], 656-666; [order]'s first entries are the draw of
    [choice(n, size=k, replace=False)], which raises if [k > n] *)
Definition randk (k : kparam) (order : list nat) (msg : list R) : option (list R) :=
  if (length msg <? k_count k (length msg))%nat then None
  else Some (keep (firstn (k_count k (length msg)) order) msg).
