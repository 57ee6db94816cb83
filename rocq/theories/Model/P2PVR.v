(** Model of the variance-reduced peer-to-peer algorithms, GT-SAGA, GT-VR,
    GT-SARAH and LT-ADMM-VR, in the style of Model/P2P.v.

    They work on [EmpiricalRiskCost]s, whose gradient is an average of gradients
    at single samples (costs/_empirical_risk/_empirical_risk_cost.py:84-160,
    Model/EmpiricalRisk.v).  The sampled batches and the coins of GT-VR are
    oracles.

    Simplifications: as in Model/P2P.v.  A table of gradients, an array with one
    row per sample, is a mapping from samples to rows, in order. *)
From Coq Require Import Reals String List Bool Arith.
From Verif.Model Require Import PyDict History Messages Network Runner Vec P2P.
Import ListNotations.
Open Scope R_scope.
Open Scope l_scope.

Definition sample := nat.
(** [iop.mean(rows, dim=0)] *)
Definition vmean (l : list vec) : vec := vscal (/ INR (length l)) (vsum l).

Section VR.
  Variables (W : agent_id -> agent_id -> R) (t : topo).
  (** number of samples of an agent, gradient at one sample, batch drawn *)
  Variables (m : agent_id -> nat) (sg : agent_id -> sample -> vec -> vec) (batch : nat -> agent_id -> list sample).
  Definition all (i : agent_id) : list sample := seq 0 (m i).
  (** [i.cost.gradient(x, indices=l)] *)
  Definition grad_on (i : agent_id) (l : list sample) (x : vec) : vec := vmean (map (fun s => sg i s x) l).
  (** [i.cost.gradient(x)] and then [i.cost.batch_used] *)
  Definition batch_gradient (i : agent_id) (x : vec) : L (vec * list sample) :=
    fun s => let b := batch (snd s) i in Some ((grad_on i b x, b), (fst s, S (snd s))).
  (** [i.cost.gradient(x, indices="batch", reduction=None)] and then [batch_used] *)
  Definition batch_rows (i : agent_id) (x : vec) : L (list (sample * vec)) :=
    fun s => Some (map (fun h => (h, sg i h x)) (batch (snd s) i), (fst s, S (snd s))).
  (** [i.cost.gradient(x, indices="all", reduction=None)] as a table *)
  Definition full_table (i : agent_id) (x : vec) : list (sample * vec) := map (fun s => (s, sg i s x)) (all i).
  (** [table[l]]: raises for an index out of range *)
  Fixpoint pick (T : list (sample * vec)) (l : list sample) : option (list vec) :=
    match l with
    | [] => Some []
    | s :: l' => match dget Nat.eqb T s, pick T l' with Some v, Some r => Some (v :: r) | _, _ => None end
    end.
  Definition rows_at (T : list (sample * vec)) (l : list sample) : L (list vec) :=
    fun s => match pick T l with Some r => Some (r, s) | None => None end.
  (** [table[l] = rows] *)
  Fixpoint store (T : list (sample * vec)) (l : list (sample * vec)) : option (list (sample * vec)) :=
    match l with
    | [] => Some T
    | (s, v) :: l' => if dmem Nat.eqb T s then store (dset Nat.eqb T s v) l' else None
    end.
  Definition rows_put (T : list (sample * vec)) (l : list (sample * vec)) : L (list (sample * vec)) :=
    fun s => match store T l with Some r => Some (r, s) | None => None end.

  (** *** GT-SAGA, _gt_saga.py:54-170 *)
  Definition saga_init (x0 : agent_id -> vec) : agent_id -> nat -> (vec * list (string * auxv vec)) * nat :=
    fun i d => ((x0 i, [("z_grads", AMap (full_table i (x0 i))); ("y", AArr vzero); ("g_old", AArr vzero); ("g", AArr vzero)]%string), d).
  Definition saga (a : R) (_ : nat) : list phase :=
    [ (* _update_gradient_estimator, lines 110-137 *)
      PUpd (fun i _ => g0 <- aux "g" ;; put "g_old" g0 ;;; x <- getx ;; gb <- batch_gradient i x ;;
        T <- auxm "z_grads" ;; r <- rows_at T (snd gb) ;; put "g" (vadd (vsub (fst gb) (vmean r)) (vmean (map snd T))));
      (* lines 86-90 *)
      PSend (fun i => y <- aux "y" ;; g <- aux "g" ;; go <- aux "g_old" ;;
        put "y_plus_delta_g" (vsub (vadd y g) go) ;;; lret [OBcast "gradient_tracker" (vsub (vadd y g) go)]);
      (* _update_gradient_tracker, lines 139-144 *)
      PUpd (fun i inb => u <- aux "y_plus_delta_g" ;; put "y" (wavg W i u (inb "gradient_tracker"%string)));
      (* lines 97-101 *)
      PSend (fun i => x <- getx ;; y <- aux "y" ;;
        put "x_minus_alpha_y" (vsub x (vscal a y)) ;;; lret [OBcast "state" (vsub x (vscal a y))]);
      (* _consensus_update, lines 146-151 *)
      PUpd (fun i inb => u <- aux "x_minus_alpha_y" ;; setx (wavg W i u (inb "state"%string)));
      (* _update_gradient_table, lines 153-169 *)
      PUpd (fun i _ => x <- getx ;; rs <- batch_rows i x ;; T <- auxm "z_grads" ;; T' <- rows_put T rs ;; putm "z_grads" T') ].

  (** *** GT-VR, _gt_vr.py:58-198; [coin k i]: [random.random() < snapshot_prob]
      at line 108 for agent [i] in iteration [k] *)
  Definition vr_init (x0 : agent_id -> vec) : agent_id -> nat -> (vec * list (string * auxv vec)) * nat :=
    fun i d => let f := grad_on i (all i) (x0 i) in
      ((x0 i, [("tau", AArr (x0 i)); ("full_grad_tau", AArr f); ("y", AArr f); ("v", AArr f); ("v_old", AArr f)]%string), d).
  Definition gt_vr (coin : nat -> agent_id -> bool) (a : R) (k : nat) : list phase :=
    [ (* lines 96-99 *)
      PSend (fun i => x <- getx ;; y <- aux "y" ;;
        put "x_minus_eta_y" (vsub x (vscal a y)) ;;; lret [OBcast "state" (vsub x (vscal a y))]);
      (* _consensus_update, lines 126-136 *)
      PUpd (fun i inb => u <- aux "x_minus_eta_y" ;; setx (wavg W i u (inb "state"%string)));
      (* lines 107-110, _snapshot_update, lines 138-149 *)
      PUpd (fun i _ => if coin k i then x <- getx ;; put "tau" x ;;; ta <- aux "tau" ;; put "full_grad_tau" (grad_on i (all i) ta)
                       else lret tt);
      (* _update_gradient_estimator, lines 151-183 *)
      PUpd (fun i _ => v <- aux "v" ;; put "v_old" v ;;; x <- getx ;; gb <- batch_gradient i x ;;
        ta <- aux "tau" ;; f <- aux "full_grad_tau" ;; put "v" (vadd (vsub (fst gb) (grad_on i (snd gb) ta)) f));
      (* lines 117-120 *)
      PSend (fun i => y <- aux "y" ;; v <- aux "v" ;; vo <- aux "v_old" ;;
        put "y_plus_delta_v" (vsub (vadd y v) vo) ;;; lret [OBcast "gradient_tracker" (vsub (vadd y v) vo)]);
      (* _update_gradient_tracker, lines 185-198 *)
      PUpd (fun i inb => u <- aux "y_plus_delta_v" ;; put "y" (wavg W i u (inb "gradient_tracker"%string))) ].

  (** *** GT-SARAH, _gt_sarah.py:58-199 *)
  Definition sarah_init (x0 : agent_id -> vec) : agent_id -> nat -> (vec * list (string * auxv vec)) * nat :=
    fun i d => ((x0 i, [("y", AArr vzero); ("v", AArr vzero); ("v_prev", AArr vzero); ("x_prev", AArr (x0 i))]%string), d).
  (** lines 96-108, the same as lines 187-199 *)
  Definition sarah_rounds (a : R) : list phase :=
    [ PSend (fun i => y <- aux "y" ;; lret [OBcast "gradient_tracker" y]);
      (* _update_gradient_tracker, lines 151-161 *)
      PUpd (fun i inb => y <- aux "y" ;; v <- aux "v" ;; vp <- aux "v_prev" ;;
        put "y" (vsub (vadd (wavg W i y (inb "gradient_tracker"%string)) v) vp));
      PSend (fun i => x <- getx ;; lret [OBcast "state" x]);
      (* _state_update, lines 163-174 *)
      PUpd (fun i inb => x <- getx ;; put "x_prev" x ;;; y <- aux "y" ;;
        setx (vsub (wavg W i x (inb "state"%string)) (vscal a y))) ].
  (** _update_sarah_estimator, lines 124-149 *)
  Definition sarah_estimate : phase :=
    PUpd (fun i _ => v <- aux "v" ;; put "v_prev" v ;;; x <- getx ;; gb <- batch_gradient i x ;;
      xp <- aux "x_prev" ;; vp <- aux "v_prev" ;; put "v" (vadd (vsub (fst gb) (grad_on i (snd gb) xp)) vp)).
  (** _inner_loop, lines 176-199 *)
  Fixpoint sarah_inner (a : R) (q : nat) : list phase :=
    match q with O => [] | S q' => (sarah_estimate :: sarah_rounds a) ++ sarah_inner a q' end.
  Definition sarah (a : R) (q : nat) (_ : nat) : list phase :=
    (* _compute_batch_grad, lines 112-122 *)
    PUpd (fun i _ => v <- aux "v" ;; put "v_prev" v ;;; x <- getx ;; put "v" (grad_on i (all i) x)) ::
    sarah_rounds a ++ sarah_inner a q.

  (** *** LT-ADMM-VR, _lt_admm_vr.py:46-112 with _lt_admm.py:86-141; without
      [v2] the table is [None] until the first step: here the key is absent *)
  Definition ltvr_init (v2 : bool) (x0 : agent_id -> vec) : agent_id -> nat -> (vec * list (string * auxv vec)) * nat :=
    fun i d => ((x0 i, [("phi", AArr (x0 i))]%string ++ (if v2 then [("r_grads"%string, AMap (full_table i (x0 i)))] else [])
                       ++ [("z_i"%string, AMap (stack t i (x0 i)))]), d).
  (** lines 99-109 *)
  Definition ltvr_local (i : agent_id) (ga : R) (corr : vec) : L unit :=
    phi <- aux "phi" ;; gb <- batch_gradient i phi ;; T <- auxm "r_grads" ;; r <- rows_at T (snd gb) ;;
    put "phi" (vsub phi (vadd (vscal ga (vadd (vsub (fst gb) (vmean r)) (vmean (map snd T)))) corr)) ;;;
    phi' <- aux "phi" ;; T' <- rows_put T (map (fun s => (s, sg i s phi')) (snd gb)) ;; putm "r_grads" T'.
  Definition lt_admm_vr (v2 : bool) (tau : nat) (ga be rho al : R) (_ : nat) : list phase :=
    [ PUpd (fun i _ => x <- getx ;; put "phi" x ;;; z <- auxm "z_i" ;;
        let corr := vscal be (vsub (vscal (rho * deg t i) x) (rows_sum z)) in
        (if v2 then lret tt else putm "r_grads" (full_table i x)) ;;;
        lfor (seq 0 tau) (fun _ => ltvr_local i ga corr) ;;;
        phi <- aux "phi" ;; setx phi);
      PSend (fun i => z <- auxm "z_i" ;; x <- getx ;; lret [OEach [(dflt, rowmap z (fun zj => vsub zj (vscal (2 * rho) x)))]]);
      PUpd (fun i inb => lfor (inb dflt) (relax "z_i" al)) ].
End VR.
