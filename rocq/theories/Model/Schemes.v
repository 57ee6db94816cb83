(** Model of activation, client-selection and drop schemes:
    /repo/decent_bench/schemes.py:19-468 and 673-748.

    Floats are exact rationals [Q] (no rounding, no NaN).  Every random number
    generator is an arbitrary stream of draws passed as an argument; what the
    library promises about a draw (a uniform number lies in [0,1), a permutation
    is a permutation, a sample is drawn without replacement) is stated in
    Spec/SchemesSpec.v. Client objects are their ids (Agent.__eq__/__hash__,
    agents.py:263-270). *)
From Coq Require Import List Bool Arith ZArith QArith Qround.
From Verif.Model Require Import PyDict.
Import ListNotations.
Open Scope nat_scope.

Definition Qltb (a b : Q) : bool := negb (Qle_bool b a).
Definition prob_ok (p : Q) : bool := negb (Qltb p 0 || Qltb 1 p).

(** ** Activation *)
(** [CyclicActivation.__init__], schemes.py:155-165 *)
Record cyclic := mkCyclic { cy_active : Z; cy_inactive : Z; cy_offset : Z }.
Definition cyclic_init (active_for : Z) (inactive_for : option Z) (offset : Z) : option cyclic :=
  let i := match inactive_for with None => active_for | Some i => i end in
  if ((active_for <? 0) || (i <? 0))%Z then None
  else if (offset <? 0)%Z then None
  else if ((active_for =? 0) && (i =? 0))%Z then None
  else Some (mkCyclic active_for i offset).
(** [CyclicActivation.is_active], schemes.py:167-172; [None] = ValueError *)
Definition cyclic_active (c : cyclic) (iteration : Z) : option bool :=
  if (iteration <? 0)%Z then None
  else
    let period := (cy_active c + cy_inactive c)%Z in
    let phase := ((iteration + cy_offset c) mod period)%Z in
    Some (phase <? cy_active c)%Z.

(** [UniformActivationRate], schemes.py:59-65; [u] = random.random() *)
Definition uniform_init (p : Q) : option Q := if prob_ok p then Some p else None.
Definition uniform_active (p u : Q) : bool := Qltb u p.

(** numpy [Generator.choice([0,1], p=[p0, 1-p0])]: searchsorted of the uniform
    draw [u] in the cumulative distribution *)
Definition choice2 (p0 u : Q) : bool := negb (Qltb u p0).
(** [MarkovChainActivation], schemes.py:84-104. State = currently active. *)
Record markov := mkMarkov { mk_up : Q; mk_down : Q; mk_state : bool }.
Definition markov_init (inactive_to_active active_to_inactive : Q) (u0 : Q) : option markov :=
  if prob_ok inactive_to_active && prob_ok active_to_inactive
  then Some (mkMarkov inactive_to_active active_to_inactive (choice2 0 u0)) else None.
Definition markov_active (m : markov) (u : Q) : bool * markov :=
  let p0 := if mk_state m then mk_down m else (1 - mk_up m)%Q in
  let s := choice2 p0 u in
  (s, mkMarkov (mk_up m) (mk_down m) s).
(** the answers to successive queries with draws [us] *)
Fixpoint markov_run (m : markov) (us : list Q) : list bool :=
  match us with [] => [] | u :: us => let '(b, m') := markov_active m u in b :: markov_run m' us end.

(** [PoissonActivation], schemes.py:122-132. [draws j] is the j-th Poisson
    draw; the state is the countdown and the number of draws made. *)
Definition poisson_init (draws : nat -> nat) : nat * nat := (draws 0, 1).
Definition poisson_active (draws : nat -> nat) (st : nat * nat) : bool * (nat * nat) :=
  let '(c, m) := st in
  if c =? 0 then (true, (draws m, S m)) else (false, (c - 1, m)).
Fixpoint poisson_run (draws : nat -> nat) (st : nat * nat) (n : nat) : list bool :=
  match n with
  | 0 => []
  | S n => let '(b, st') := poisson_active draws st in b :: poisson_run draws st' n
  end.

(** ** Drops *)
(** [UniformDropRate], schemes.py:700-708 *)
Definition uniform_drop_init (p : Q) : option Q := if prob_ok p then Some p else None.
Definition uniform_drop (p u : Q) : bool := Qltb u p.
(** [GilbertElliott], schemes.py:731-748. State = currently bad. A query
    consumes a draw for the transition and, in the bad state only, one for the
    drop: each query is given both, [snd] being ignored in the good state. *)
Record gilbert := mkGilbert { ge_rate : Q; ge_b2g : Q; ge_g2b : Q; ge_bad : bool }.
Definition gilbert_init (drop_rate bad_to_good good_to_bad : Q) (bad0 : bool) : option gilbert :=
  if prob_ok drop_rate then
    if prob_ok bad_to_good && prob_ok good_to_bad then Some (mkGilbert drop_rate bad_to_good good_to_bad bad0) else None
  else None.
Definition gilbert_drop (g : gilbert) (u : Q * Q) : bool * gilbert :=
  let p0 := if ge_bad g then ge_b2g g else (1 - ge_g2b g)%Q in
  let s := choice2 p0 (fst u) in
  ((if s then Qltb (snd u) (ge_rate g) else false), mkGilbert (ge_rate g) (ge_b2g g) (ge_g2b g) s).
Fixpoint gilbert_run (g : gilbert) (us : list (Q * Q)) : list bool :=
  match us with [] => [] | u :: us => let '(b, g') := gilbert_drop g u in b :: gilbert_run g' us end.

(** ** Client selection *)
(** [_validate_selection_size], schemes.py:182-202 *)
Inductive size := Count (m : Z) | Fraction (f : Q).
Definition size_init (num : option Z) (fraction : option Q) : option size :=
  match num, fraction with
  | None, None | Some _, Some _ => None
  | Some m, None => if (m <=? 0)%Z then None else Some (Count m)
  | None, Some f => if Qltb 0 f && Qle_bool f 1 then Some (Fraction f) else None
  end.
(** [_resolve_num_selected_clients], schemes.py:204-219; [int()] of a positive
    number is its floor *)
Definition resolve (sz : size) (n : nat) : nat :=
  match sz with
  | Count m => Nat.min (Z.to_nat m) n
  | Fraction f => Nat.min (Nat.max 1 (Z.to_nat (Qfloor (f * inject_Z (Z.of_nat n))))) n
  end.

(** Python [sorted(l, key=...)]: stable. [le a b] decides [key a <= key b]. *)
Section Sort.
  Context {A : Type} (le : A -> A -> bool).
  Fixpoint insert (x : A) (l : list A) : list A :=
    match l with [] => [x] | y :: t => if le x y then x :: y :: t else y :: insert x t end.
  Fixpoint sorted (l : list A) : list A := match l with [] => [] | x :: t => insert x (sorted t) end.
End Sort.

Inductive scheme := Uniform | DataSize | Fair | HighLoss.
(** What one call of [select] is told besides the pool: the order in which the
    generator would enumerate positions (first [k] are the sample), data sizes
    ([None]: not an empirical cost), losses, and the tie-break permutation. *)
Record draw := mkDraw { dr_order : list nat; dr_size : nat -> option nat; dr_loss : nat -> Q; dr_ties : list nat }.

Definition lookup (counts : list (nat * nat)) (c : nat) : nat :=
  match dget Nat.eqb counts c with Some v => v | None => 0 end.
(** schemes.py:402-403 *)
Definition bump (counts : list (nat * nat)) (sel : list nat) : list (nat * nat) :=
  fold_left (fun d c => dset Nat.eqb d c (lookup d c + 1)) sel counts.

(** lexicographic order of the key [(-loss, tie)], schemes.py:463-466 *)
Definition rank_le (loss : nat -> Q) (ties : list nat) (i j : nat) : bool :=
  Qltb (- loss i) (- loss j) || (Qeq_bool (- loss i) (- loss j) && (nth i ties 0 <=? nth j ties 0)).

(** [select]: Uniform schemes.py:274-285, DataSize 319-341, Fair 386-404,
    HighLoss 445-468. [None] = an exception. Returns the selection and the new
    selection counts (used by Fair only). numpy's [choice(p=...)] raises when
    fewer than [k] entries are positive. *)
Definition select (sch : scheme) (sz : size) (counts : list (nat * nat)) (pool : list nat) (d : draw)
  : option (list nat * list (nat * nat)) :=
  match pool with
  | [] => Some ([], counts)
  | c0 :: _ =>
    let n := length pool in
    let k := resolve sz n in
    let pick l := map (fun i => nth i pool c0) (firstn k l) in
    match sch with
    | Uniform => if k =? n then Some (pool, counts) else Some (pick (dr_order d), counts)
    | DataSize =>
      if k =? n then Some (pool, counts)
      else if forallb (fun c => match dr_size d c with Some _ => true | None => false end) pool
           then if length (filter (fun c => match dr_size d c with Some (S _) => true | _ => false end) pool) <? k
                then None
                else Some (pick (dr_order d), counts)
           else None
    | Fair =>
      let sel := if k =? n then pool
                 else firstn k (sorted (fun a b => lookup counts a <=? lookup counts b) pool) in
      Some (sel, bump counts sel)
    | HighLoss =>
      if k =? n then Some (pool, counts)
      else Some (pick (sorted (rank_le (fun i => dr_loss d (nth i pool c0)) (dr_ties d)) (seq 0 n)), counts)
    end
  end.

(** successive rounds of one Fair scheme object *)
Fixpoint fair_rounds (sz : size) (counts : list (nat * nat)) (pools : list (list nat)) (d : draw) : list (nat * nat) :=
  match pools with
  | [] => counts
  | p :: ps => match select Fair sz counts p d with
               | Some (_, counts') => fair_rounds sz counts' ps d
               | None => counts
               end
  end.
