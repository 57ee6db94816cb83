(** Model of [PyTorchCost],
    /repo/decent_bench/costs/_empirical_risk/_pytorch_cost.py.

    A parameter tensor is the list of its elements; the model's parameters are a
    list of such lists.  [loss mode ps B] is [loss_fn(model(batch_x), batch_y)]
    for the parameters [ps] on the batch [B] (a nonempty list of samples), [mode]
    being [model.training]; [grads mode ps B] is [torch.autograd.grad] of it,
    one list per parameter; [out mode ps s] is [final_activation(model(.))] on
    one input.  Samples are what the dataset's [__getitem__] returns; a dataset
    that is loaded lazily ([load_dataset=False]) is taken to return the same
    samples at every access.  Devices, compilation and data types are left
    out. *)
From Coq Require Import Reals List Bool Arith ZArith.
From Verif.Model Require Import Batch Vec.
Import ListNotations.
Open Scope R_scope.

Inductive terr := TValueError | TIndexError | TRuntimeError | TTypeError | TNotImplemented.
Inductive tres (A : Type) := TOk (a : A) | TErr (e : terr).
Arguments TOk {A}. Arguments TErr {A}.

(** [l[i : i + m]] for [i] in [range(0, len(l), m)]: ValueError for [m = 0], no
    chunk for a negative [m] *)
Definition chunks {A} (m : Z) (l : list A) : option (list (list A)) :=
  if (m =? 0)%Z then None
  else if (m <? 0)%Z then Some []
  else let k := Z.to_nat m in Some (map (fun i => firstn k (skipn (i * k) l)) (seq 0 ((length l + k - 1) / k))).
(** [torch.split(x, sizes)] for sizes that add up *)
Fixpoint split_sizes (x : list R) (sizes : list nat) : list (list R) :=
  match sizes with [] => [] | k :: sizes => firstn k x :: split_sizes (skipn k x) sizes end.
(** [self._dataset[i]] on a list *)
Definition pyget {S} (D : list S) (i : Z) : option S :=
  let n := Z.of_nat (length D) in
  if ((- n <=? i) && (i <? n))%Z then nth_error D (Z.to_nat (i mod n)) else None.
Fixpoint pygets {S} (D : list S) (l : list Z) : option (list S) :=
  match l with
  | [] => Some []
  | i :: l => match pyget D i, pygets D l with Some a, Some r => Some (a :: r) | _, _ => None end
  end.
Definition ladd (a b : list R) : list R := map (fun p => fst p + snd p) (combine a b).
Definition lsub (a b : list R) : list R := map (fun p => fst p - snd p) (combine a b).
Definition lscal (c : R) (a : list R) : list R := map (Rmult c) a.

Section TorchCost.
  Context {S In Out Opt : Type}.
  (** the dataset, [batch_size], [_max_batch_size], [use_dataloader],
      [load_dataset], the sizes of the parameters *)
  Record config := { c_data : list S; c_batch : nat; c_max : Z; c_loader : bool; c_load : bool; c_sizes : list nat }.
  Variable cf : config.
  Definition n_samples : nat := length (c_data cf).
  Definition total_params : nat := fold_right Nat.add 0%nat (c_sizes cf).   (* line 724 *)
  Variable loss : bool -> list (list R) -> list S -> R.
  Variable grads : bool -> list (list R) -> list S -> list (list R).
  Variable out : bool -> list (list R) -> In -> Out.
  (** [torch.randperm(n).tolist()] and the order in which a new iterator of the
      [DataLoader] visits the samples; both draws are numbered *)
  Variables (randperm order : nat -> list nat).

  (** the mutable state: parameters, [model.training], [_last_batch_used],
      [_last_batch_x] and [_last_batch_y] ([None]: no attribute),
      [_remaining_batch_indices], the data loader's iterator as the batches still
      to come ([None]: no loader yet), draws so far *)
  Record tc := { t_params : list (list R); t_training : bool; t_used : list Z; t_cache : option (list S);
                 t_remaining : list nat; t_iter : option (list (list nat)); t_draws : nat }.
  Definition with_params (ps : list (list R)) (t : tc) : tc :=
    {| t_params := ps; t_training := t_training t; t_used := t_used t; t_cache := t_cache t; t_remaining := t_remaining t; t_iter := t_iter t; t_draws := t_draws t |}.
  Definition with_training (b : bool) (t : tc) : tc :=
    {| t_params := t_params t; t_training := b; t_used := t_used t; t_cache := t_cache t; t_remaining := t_remaining t; t_iter := t_iter t; t_draws := t_draws t |}.
  Definition with_batch (used : list Z) (B : list S) (t : tc) : tc :=
    {| t_params := t_params t; t_training := t_training t; t_used := used; t_cache := Some B; t_remaining := t_remaining t; t_iter := t_iter t; t_draws := t_draws t |}.
  Definition with_remaining (r : list nat) (d : nat) (t : tc) : tc :=
    {| t_params := t_params t; t_training := t_training t; t_used := t_used t; t_cache := t_cache t; t_remaining := r; t_iter := t_iter t; t_draws := d |}.
  Definition with_iter (bs : list (list nat)) (d : nat) (t : tc) : tc :=
    {| t_params := t_params t; t_training := t_training t; t_used := t_used t; t_cache := t_cache t; t_remaining := t_remaining t; t_iter := Some bs; t_draws := d |}.
  (** [__init__], lines 134-177, for a model with parameters [ps] (a new module
      is in training mode) *)
  Definition new_tc (ps : list (list R)) : tc :=
    {| t_params := ps; t_training := true; t_used := []; t_cache := None; t_remaining := []; t_iter := None; t_draws := 0 |}.
  (** pickling and unpickling, lines 179-200: the cached tensors are dropped, the
      iterator of a data loader starts anew *)
  Definition loader_batches (d : nat) : list (list nat) :=
    match chunks (Z.of_nat (c_batch cf)) (order d) with Some bs => bs | None => [] end.
  Definition pickled (t : tc) : tc :=
    {| t_params := t_params t; t_training := t_training t; t_used := t_used t; t_cache := None; t_remaining := t_remaining t;
       t_iter := match t_iter t with Some _ => Some (loader_batches (t_draws t)) | None => None end;
       t_draws := match t_iter t with Some _ => Datatypes.S (t_draws t) | None => t_draws t end |}.

  (** [_set_model_parameters], lines 234-257 *)
  Definition set_model_parameters (x : list R) (t : tc) : tres unit * tc :=
    if (length x =? total_params)%nat then (TOk tt, with_params (split_sizes x (c_sizes cf)) t) else (TErr TValueError, t).
  (** [_get_model_parameters], lines 259-262 *)
  Definition get_model_parameters (t : tc) : list R := concat (t_params t).

  (** [_handle_dataloader], lines 604-616.  The iterator returns its next batch;
      when there is none a new one is made, whose first batch exists because
      the dataset is not empty. *)
  Definition handle_dataloader (t : tc) : option (list S * list Z) * tc :=
    let t := match t_iter t with None => with_iter (loader_batches (t_draws t)) (Datatypes.S (t_draws t)) t | Some _ => t end in
    let take bs d t := match bs with
                       | b :: bs => (match pygets (c_data cf) (zs b) with Some B => Some (B, zs b) | None => None end, with_iter bs d t)
                       | [] => (None, t)
                       end in
    match t_iter t with
    | Some [] => take (loader_batches (t_draws t)) (Datatypes.S (t_draws t)) t
    | Some bs => take bs (t_draws t) t
    | None => (None, t)
    end.
  (** the part of [_handle_indices] for a list of indices, lines 673-687: the
      cached batch, the whole dataset, or the samples named; an empty list makes
      the unpacking of [zip] fail *)
  Definition listz_eqb (a b : list Z) : bool := if list_eq_dec Z.eq_dec a b then true else false.
  Definition handle_list (l : list Z) (t : tc) : tres (list S * list Z) :=
    match listz_eqb l (t_used t), t_cache t with
    | true, Some B => TOk (B, t_used t)
    | _, _ =>
        if (length l =? n_samples)%nat && c_load cf
        then match c_data cf with [] => TErr TValueError | D => TOk (D, zs (seq 0 n_samples)) end
        else match l with
             | [] => TErr TValueError
             | _ => match pygets (c_data cf) l with Some B => TOk (B, l) | None => TErr TIndexError end
             end
    end.
  (** [_handle_indices], lines 645-687 *)
  Definition handle_indices (ix : indices) (t : tc) : tres (list S * list Z) * tc :=
    let all := zs (seq 0 n_samples) in
    match ix with
    | IxBatch =>
        if (c_batch cf <? n_samples)%nat
        then if c_loader cf
             then let '(r, t) := handle_dataloader t in (match r with Some b => TOk b | None => TErr TRuntimeError end, t)
             else let '(rem, d) := if (length (t_remaining t) <? c_batch cf)%nat then (randperm (t_draws t), Datatypes.S (t_draws t)) else (t_remaining t, t_draws t) in
                  let t := with_remaining (skipn (c_batch cf) rem) d t in
                  (handle_list (zs (firstn (c_batch cf) rem)) t, t)
        else (handle_list all t, t)
    | IxAll => (handle_list all t, t)
    | IxBadString => (TErr TValueError, t)
    | IxOne i => (handle_list [i] t, t)
    | IxMany l => (handle_list l t, t)
    end.
  (** [_get_batch_data], lines 618-643 *)
  Definition get_batch_data (ix : indices) (t : tc) : tres (list (list S)) * tc :=
    let '(r, t) := handle_indices ix t in
    match r with
    | TErr e => (TErr e, t)
    | TOk (B, used) =>
        let t := with_batch used B t in
        (match chunks (c_max cf) B with Some bs => TOk bs | None => TErr TValueError end, t)
    end.

  (** [function], lines 302-316 *)
  Definition function (x : list R) (ix : indices) (t : tc) : tres R * tc :=
    let '(r, t) := set_model_parameters x t in
    match r with
    | TErr e => (TErr e, t)
    | TOk _ =>
        let t := with_training false t in
        let '(r, t) := get_batch_data ix t in
        (match r with
         | TErr e => TErr e
         | TOk bs => TOk (fold_left (fun a B => a + loss false (t_params t) B * INR (length B)) bs 0 / INR (length (t_used t)))
         end, t)
    end.
  (** [gradient] with [reduction="mean"], lines 319-356 *)
  Definition zeros_like (ps : list (list R)) : list (list R) := map (map (fun _ => 0)) ps.
  Definition add_scaled (w : R) (acc gs : list (list R)) : list (list R) := map (fun p => ladd (fst p) (lscal w (snd p))) (combine acc gs).
  Definition gradient (x : list R) (ix : indices) (t : tc) : tres (list R) * tc :=
    let '(r, t) := set_model_parameters x t in
    match r with
    | TErr e => (TErr e, t)
    | TOk _ =>
        let t := with_training true t in
        let '(r, t) := get_batch_data ix t in
        (match r with
         | TErr e => TErr e
         | TOk [B] => TOk (concat (grads true (t_params t) B))
         | TOk bs =>
             let inv := 1 / INR (length (t_used t)) in
             TOk (concat (fold_left (fun acc B => add_scaled (INR (length B) * inv) acc (grads true (t_params t) B)) bs (zeros_like (t_params t))))
         end, t)
    end.
  (** [gradient] with [reduction=None], lines 358-407 and 689-716: [vmap] of the gradient of
      the loss on a batch of one sample; the rows are filled chunk by chunk *)
  Definition sample_grad (ps : list (list R)) (s : S) : list R := concat (grads true ps [s]).
  Definition per_sample_gradients (x : list R) (ix : indices) (t : tc) : tres (list (list R)) * tc :=
    let '(r, t) := set_model_parameters x t in
    match r with
    | TErr e => (TErr e, t)
    | TOk _ =>
        let t := with_training true t in
        let '(r, t) := get_batch_data ix t in
        (match r with TErr e => TErr e | TOk bs => TOk (concat (map (map (sample_grad (t_params t))) bs)) end, t)
    end.
  (** [predict] on a list of inputs, lines 265-299; an empty list makes
      [torch.stack] raise RuntimeError *)
  Definition predict (x : list R) (data : list In) (t : tc) : tres (list Out) * tc :=
    let '(r, t) := set_model_parameters x t in
    match r with
    | TErr e => (TErr e, t)
    | TOk _ =>
        let t := with_training false t in
        (match data with
         | [] => TErr TRuntimeError
         | _ => match chunks (c_max cf) data with
                | None => TErr TValueError
                | Some cs => TOk (concat (map (map (out false (t_params t))) cs))
                end
         end, t)
    end.

  (** *** A history of calls on one cost object *)
  Inductive top := PFunction (x : list R) (ix : indices) | PGradient (x : list R) (ix : indices) | PSamples (x : list R) (ix : indices)
    | PPredict (x : list R) (data : list In) | PPickle.
  Inductive tobs := OFunction (r : tres R) (used : list Z) | OGradient (r : tres (list R)) (used : list Z) | OSamples (r : tres (list (list R))) (used : list Z)
    | OPredict (r : tres (list Out)) | OPickle.
  (** the observation includes [batch_used] after the call *)
  Definition tstep (op : top) (t : tc) : tobs * tc :=
    match op with
    | PFunction x ix => let '(r, t) := function x ix t in (OFunction r (t_used t), t)
    | PGradient x ix => let '(r, t) := gradient x ix t in (OGradient r (t_used t), t)
    | PSamples x ix => let '(r, t) := per_sample_gradients x ix t in (OSamples r (t_used t), t)
    | PPredict x data => let '(r, t) := predict x data t in (OPredict r, t)
    | PPickle => (OPickle, pickled t)
    end.
  Fixpoint tsteps (ops : list top) (t : tc) : list tobs * tc :=
    match ops with
    | [] => ([], t)
    | op :: ops => let '(o, t) := tstep op t in let '(os, t) := tsteps ops t in (o :: os, t)
    end.

  (** *** Local training, lines 474-580 *)
  (** the optimizer's [step] (in place on the parameters) and the scheduler's *)
  Variable opt_step : Opt -> list (list R) -> list (list R) -> list (list R) * Opt.
  Variable sched_step : Opt -> Opt.
  (** [regularization]: none, a tensor, or a callable; a callable returning a
      scalar contributes the gradient of that scalar, given as one list per
      parameter.  A value that is no tensor raises TypeError. *)
  Inductive reg := RNone | RTensor (v : list R) | RScalarFun (dr : list R -> list (list R)) | RVectorFun (f : list R -> list R) | RNotATensor.
  (** what one batch does: loss gradient, penalty, optimizer step, correction
      step; lines 524-571 *)
  Definition train_batch (r : reg) (B : list S) (ps : list (list R)) (o : Opt) : tres (list (list R) * Opt) :=
    let g := grads true ps B in
    let plain := TOk (opt_step o ps g) in
    let vector v :=
      if (length v =? 1)%nat then plain
      else if (length v =? total_params)%nat
           then let '(ps, o) := opt_step o ps g in TOk (map (fun p => lsub (fst p) (snd p)) (combine ps (split_sizes v (c_sizes cf))), o)
           else TErr TValueError in
    match r with
    | RNone => plain
    | RTensor v => vector v
    | RVectorFun f => vector (f (concat ps))
    | RScalarFun dr => TOk (opt_step o ps (add_scaled 1 g (dr (concat ps))))
    | RNotATensor => TErr TTypeError
    end.
  Fixpoint train_batches (r : reg) (bs : list (list S)) (ps : list (list R)) (o : Opt) : tres unit * list (list R) * Opt :=
    match bs with
    | [] => (TOk tt, ps, o)
    | B :: bs => match train_batch r B ps o with TOk (ps, o) => train_batches r bs ps o | TErr e => (TErr e, ps, o) end
    end.
  (** the loop of [iterations], lines 521-575; the last component counts the
      gradient calls reported to the agent *)
  Fixpoint train_loop (k : nat) (r : reg) (ix : indices) (t : tc) (o : Opt) (calls : nat) : tres unit * tc * Opt * nat :=
    match k with
    | O => (TOk tt, t, o, calls)
    | Datatypes.S k =>
        let '(b, t) := get_batch_data ix t in
        match b with
        | TErr e => (TErr e, t, o, calls)
        | TOk bs =>
            let '(res, ps, o) := train_batches r bs (t_params t) o in
            let t := with_params ps t in
            match res with
            | TErr e => (TErr e, t, o, calls)
            | TOk _ => train_loop k r ix t o (calls + length (t_used t))
            end
        end
    end.
  (** [local_training]; the optimizer is [None] before [init_local_training].
      The second component is what the caller's tensor [x] contains afterwards:
      [param.data = chunk.view(shape)] (line 257) makes the parameters views of
      [x] (on the same device), and the optimizer and the correction step work in
      place. *)
  Definition local_training (x : list R) (iterations : nat) (r : reg) (ix : indices) (t : tc) (o : option Opt) (calls : nat)
    : tres (list R) * list R * tc * option Opt * nat :=
    match o with
    | None => (TErr TRuntimeError, x, t, None, calls)
    | Some o =>
        let '(q, t) := set_model_parameters x t in
        match q with
        | TErr e => (TErr e, x, t, Some o, calls)
        | TOk _ =>
            let '(q, t, o, calls) := train_loop iterations r ix (with_training true t) o calls in
            match q with
            | TErr e => (TErr e, concat (t_params t), t, Some o, calls)
            | TOk _ => (TOk (get_model_parameters t), concat (t_params t), t, Some (sched_step o), calls)
            end
        end
    end.
End TorchCost.
Arguments config S : clear implicits.
Arguments tc S : clear implicits.
