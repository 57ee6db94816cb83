(** C80-C84: the cost that wraps a PyTorch model. *)
From Coq Require Import Reals List Bool Arith ZArith Permutation Lia Lra.
From Verif.Model Require Import Batch Vec TorchCost.
From Verif.Spec Require Import EmpiricalSpec TorchSpec.
From Verif.Proofs Require Import EmpiricalProofs TorchProofs TorchInv TorchCalls TorchBatches TorchTrain TorchMax.
Import ListNotations.
Open Scope R_scope.

Lemma nth_first : forall {A} (d : A) m l i, (i < m)%nat -> nth i (firstn m l) d = nth i l d.
Proof. intros A d. induction m as [|m IH]; intros l i H; [lia|]. destruct l; [destruct i; reflexivity|]. destruct i; [reflexivity|]. cbn. apply IH. lia. Qed.
Lemma nth_skip : forall {A} (d : A) a l i, nth i (skipn a l) d = nth (a + i) l d.
Proof. intros A d. induction a as [|a IH]; intros l i; [reflexivity|]. destruct l; [destruct i; reflexivity|]. cbn. apply IH. Qed.

Section Torch.
  Context {S In' Out Opt : Type}.
  Variables (cf : config S) (loss : bool -> list (list R) -> list S -> R) (grads : bool -> list (list R) -> list S -> list (list R)) (out : bool -> list (list R) -> In' -> Out).
  Variables (randperm order : nat -> list nat).
  Local Notation D := (c_data cf).
  Local Notation n := (n_samples cf).
  Local Notation b := (c_batch cf).
  Local Notation sizes := (c_sizes cf).
  Local Notation sel := (selects n b (c_loader cf) (c_load cf)).
  Local Notation shape ps := (map (@length R) ps = sizes).
  Local Notation run := (tsteps cf loss grads out randperm order).

  (** *** C80 *)
  Theorem C80_set_get : forall (x : list R) (t : tc S),
    (right_size sizes x -> exists t', set_model_parameters cf x t = (TOk tt, t') /\ get_model_parameters t' = x /\ unflattened sizes x (t_params t') /\
       (t_training t', t_used t', t_cache t', t_remaining t', t_iter t', t_draws t') = (t_training t, t_used t, t_cache t, t_remaining t, t_iter t, t_draws t)) /\
    (~ right_size sizes x -> set_model_parameters cf x t = (TErr TValueError, t)).
  Proof.
    intros x t. unfold set_model_parameters, total_params, right_size. destruct (Nat.eqb_spec (length x) (fold_right Nat.add 0%nat sizes)) as [E|E]; split; intros H; try congruence; try tauto.
    destruct (split_sizes_ok sizes x E) as [C1 C2]. eexists. split; [reflexivity|]. split; [exact C1|]. split; [split; assumption|reflexivity].
  Qed.
  (** flattening loses nothing: the parameters obtained are the ones flattened *)
  Theorem C80_round_trip : forall (ps : list (list R)) (t : tc S), shape ps -> exists t', set_model_parameters cf (concat ps) t = (TOk tt, t') /\ t_params t' = ps.
  Proof.
    intros ps t H. unfold set_model_parameters, total_params. rewrite length_concat, H, Nat.eqb_refl. eexists. split; [reflexivity|]. cbn. rewrite <- H. apply split_sizes_concat.
  Qed.

  (** what the constructor checks ([batch_size]), a positive [max_batch_size],
      and torch's permutations *)
  Hypothesis (Hb : (0 < b <= n)%nat) (Hm : (0 < c_max cf)%Z).
  Hypothesis (Hr : forall d, Permutation (randperm d) (seq 0 n)) (Ho : forall d, Permutation (order d) (seq 0 n)).

  (** *** C81: after any history of calls *)
  Theorem C81_function : mean_loss loss -> forall ps0 ops x ix r t', function cf loss randperm order x ix (snd (run ops (new_tc ps0))) = (r, t') ->
    match r with
    | TOk v => right_size sizes x /\ exists ps B, unflattened sizes x ps /\ names D (t_used t') B /\ B <> [] /\ sel ix (t_used t') /\ v = rmean (map (fun s => loss false ps [s]) B)
    | TErr _ => ~ (right_size sizes x /\ valid n ix)
    end.
  Proof using Hb Hm Hr Ho.
    intros ML ps0 ops x ix r t' E. destruct (function_ok cf loss randperm order Hb Hm Hr Ho ML x ix (snd (run ops (new_tc ps0)))) as (r0 & t0 & E0 & _ & H).
    - apply steps_inv; auto. apply inv_new.
    - rewrite E in E0. injection E0 as <- <-. exact H.
  Qed.
  Theorem C81_gradient : mean_grads (fun ps => shape ps) grads -> forall ps0 ops x ix r t', gradient cf grads randperm order x ix (snd (run ops (new_tc ps0))) = (r, t') ->
    match r with
    | TOk v => right_size sizes x /\ exists ps B, unflattened sizes x ps /\ names D (t_used t') B /\ B <> [] /\ sel ix (t_used t') /\
        length v = length x /\ forall j, nth j v 0 = rmean (map (fun s => nth j (concat (grads true ps [s])) 0) B)
    | TErr _ => ~ (right_size sizes x /\ valid n ix)
    end.
  Proof using Hb Hm Hr Ho.
    intros MG ps0 ops x ix r t' E. destruct (gradient_ok cf grads randperm order Hb Hm Hr Ho MG x ix (snd (run ops (new_tc ps0)))) as (r0 & t0 & E0 & _ & H).
    - apply steps_inv; auto. apply inv_new.
    - rewrite E in E0. injection E0 as <- <-. exact H.
  Qed.
  Theorem C81_per_sample : forall ps0 ops x ix r t', per_sample_gradients cf grads randperm order x ix (snd (run ops (new_tc ps0))) = (r, t') ->
    match r with
    | TOk rows => right_size sizes x /\ exists ps B, unflattened sizes x ps /\ names D (t_used t') B /\ B <> [] /\ sel ix (t_used t') /\ rows = map (fun s => concat (grads true ps [s])) B
    | TErr _ => ~ (right_size sizes x /\ valid n ix)
    end.
  Proof using Hb Hm Hr Ho.
    intros ps0 ops x ix r t' E. destruct (samples_ok cf grads randperm order Hb Hm Hr Ho x ix (snd (run ops (new_tc ps0)))) as (r0 & t0 & E0 & _ & H).
    - apply steps_inv; auto. apply inv_new.
    - rewrite E in E0. injection E0 as <- <-. exact H.
  Qed.

  (** *** C82: mini-batches smaller than the dataset *)
  (** Without a data loader, pickling allowed: the [k]-th batch of a history has
      [b] different samples, and two batches of the same round of [n / b]
      batches share no sample. *)
  Theorem C82_batches : c_loader cf = false -> (b < n)%nat -> forall ps0 ops os t', run ops (new_tc ps0) = (os, t') ->
    (forall used, In used (batches ops os) -> samples_of_size n b used) /\
    (forall k k' used used', (k <> k')%nat -> (k / (n / b) = k' / (n / b))%nat -> nth_error (batches ops os) k = Some used -> nth_error (batches ops os) k' = Some used' -> forall i, In i used -> ~ In i used').
  Proof using Hb Hm Hr Ho.
    intros Hl Hn ps0 ops os t' E. pose proof (plain_order cf loss grads out randperm order Hb Hm Hr Ho Hl Hn ps0 ops os t' E) as P. destruct (q_bounds cf Hb) as (Q1 & Q2 & Q3).
    assert (Room : forall k, ((k mod (n / b) + 1) * b <= n)%nat) by (intros k; apply Q3, Nat.mod_upper_bound; lia).
    split.
    - intros used I. apply In_nth_error in I as [k Ik]. rewrite (P k used Ik). unfold plain_batch. destruct (perm_ok cf randperm Hr (k / (n / b))) as (N1 & N2 & N3). specialize (Room k).
      set (rp := randperm (k / (n / b))) in *. set (s := (k mod (n / b))%nat) in *.
      assert (L : length (firstn b (skipn (s * b) rp)) = b) by (rewrite firstn_length, skipn_length; lia). rewrite <- L at 1.
      assert (Inc : forall i, In i (firstn b (skipn (s * b) rp)) -> In i rp) by (intros i Ii; rewrite <- (firstn_skipn (s * b) rp), <- (firstn_skipn b (skipn (s * b) rp)); apply in_or_app; right; apply in_or_app; now left).
      apply zs_samples; [|intros i Ii; apply N2; auto].
      rewrite <- (firstn_skipn (s * b) rp), <- (firstn_skipn b (skipn (s * b) rp)) in N1. apply (NoDup_concat_in [firstn (s * b) rp; firstn b (skipn (s * b) rp); skipn b (skipn (s * b) rp)]); cbn; rewrite ?app_nil_r; auto.
    - assert (G : forall k k' used used', (k < k')%nat -> (k / (n / b) = k' / (n / b))%nat -> nth_error (batches ops os) k = Some used -> nth_error (batches ops os) k' = Some used' -> forall i, In i used -> ~ In i used').
      { intros k k' used used' Hk He H1 H2 i I1 I2. rewrite (P _ _ H1) in I1. rewrite (P _ _ H2) in I2. unfold plain_batch in *. rewrite <- He in I2.
        pose proof (Nat.div_mod k (n / b) ltac:(lia)) as M1. pose proof (Nat.div_mod k' (n / b) ltac:(lia)) as M2. rewrite <- He in M2. specialize (Room k').
        set (rp := randperm (k / (n / b))) in *. set (s := (k mod (n / b))%nat) in *. set (s' := (k' mod (n / b))%nat) in *. assert (Hs : (s < s')%nat) by lia.
        destruct (perm_ok cf randperm Hr (k / (n / b))) as (N1 & _ & _). fold rp in N1. apply in_map_iff in I1 as (a & <- & I1). apply in_map_iff in I2 as (a' & E' & I2). apply Nat2Z.inj in E'. subst a'.
        assert (J1 : In a (firstn (s' * b) rp)).
        { assert (Hle : (s * b + b <= s' * b)%nat) by nia. replace (firstn (s' * b) rp) with (firstn (s * b) rp ++ firstn b (skipn (s * b) rp) ++ firstn (s' * b - (s * b + b)) (skipn (b + s * b) rp)).
          - apply in_or_app. right. apply in_or_app. now left.
          - replace (s' * b)%nat with (s * b + (b + (s' * b - (s * b + b))))%nat at 2 by lia. rewrite <- (firstn_skipn (s * b) (firstn (s * b + (b + (s' * b - (s * b + b)))) rp)), firstn_firstn, Nat.min_l by lia. f_equal.
            rewrite skipn_firstn_comm. replace (s * b + (b + (s' * b - (s * b + b))) - s * b)%nat with (b + (s' * b - (s * b + b)))%nat by lia. rewrite <- (firstn_skipn b (firstn (b + (s' * b - (s * b + b))) (skipn (s * b) rp))), firstn_firstn, Nat.min_l by lia. f_equal.
            rewrite skipn_firstn_comm, skip_add. f_equal. lia. }
        assert (J2 : In a (skipn (s' * b) rp)) by (rewrite <- (firstn_skipn b (skipn (s' * b) rp)); apply in_or_app; now left).
        rewrite <- (firstn_skipn (s' * b) rp) in N1. clear - N1 J1 J2. induction (firstn (s' * b) rp) as [|y l IH]; [contradiction|]. cbn in N1. inversion N1 as [|? ? A1 A2]; subst. destruct J1 as [->|J1]; [apply A1, in_or_app; now right|auto]. }
      intros k k' used used' Hne He H1 H2 i I1 I2. destruct (Nat.lt_ge_cases k k') as [Hlt|Hge]; [eapply (G k k'); eauto|eapply (G k' k); eauto; lia].
  Qed.
  (** With a data loader, between two picklings: every epoch visits every sample
      once, in batches of [b] but for the last one. *)
  Theorem C82_epochs : c_loader cf = true -> (b < n)%nat -> forall ps0 ops os t', ~ In PPickle ops -> run ops (new_tc ps0) = (os, t') ->
    let m := ((n + b - 1) / b)%nat in
    (forall e, ((e + 1) * m <= length (batches ops os))%nat -> Permutation (concat (firstn m (skipn (e * m) (batches ops os)))) (range n)) /\
    (forall k used, nth_error (batches ops os) k = Some used -> ((k + 1) mod m <> 0)%nat -> length used = b).
  Proof using Hb Hm Hr Ho.
    intros Hl Hn ps0 ops os t' Np E m. pose proof (load_order cf loss grads out randperm order Hb Hm Hr Ho Hl Hn ps0 ops os t' Np E) as P. fold m in P.
    assert (M : (0 < m)%nat) by (apply Nat.div_str_pos; lia). destruct (ceil_div n b ltac:(lia)) as [C1 C2]. fold m in C1, C2. split.
    - intros e He. assert (Eq : firstn m (skipn (e * m) (batches ops os)) = map (fun i => zs (firstn b (skipn (i * b) (order e)))) (seq 0 m)).
      { apply (nth_ext _ _ [] []); [rewrite firstn_length, skipn_length, map_length, seq_length; lia|]. intros i Hi. rewrite firstn_length, skipn_length in Hi. assert (Him : (i < m)%nat) by lia.
        rewrite nth_first by exact Him. rewrite nth_skip.
        replace (nth i (map (fun i => zs (firstn b (skipn (i * b) (order e)))) (seq 0 m)) []) with (zs (firstn b (skipn (i * b) (order e)))).
        2:{ symmetry. apply nth_error_nth. rewrite nth_error_map, (nth_error_nth' _ 0%nat) by (now rewrite seq_length). rewrite seq_nth by exact Him. reflexivity. }
        destruct (nth_error (batches ops os) (e * m + i)) as [used|] eqn:En; [|apply nth_error_None in En; lia]. rewrite (nth_error_nth _ _ _ En), (P _ _ En). unfold load_batch. fold m. destruct (pos_lt e i m Him) as [-> ->]. reflexivity. }
      rewrite Eq. rewrite <- (map_map (fun i => firstn b (skipn (i * b) (order e))) zs). unfold zs at 1. rewrite <- concat_map, chunk_concat. cbn [Nat.mul skipn]. rewrite firstn_all2 by (rewrite (Permutation_length (Ho e)), seq_length; exact C1).
      apply Permutation_map, Ho.
    - intros k used En Hk. rewrite (P _ _ En). unfold load_batch, zs. fold m. rewrite map_length, firstn_length, skipn_length, (Permutation_length (Ho _)), seq_length.
      pose proof (Nat.div_mod k m ltac:(lia)) as Ed. pose proof (Nat.mod_upper_bound k m ltac:(lia)) as Eu.
      assert (Hk' : (k mod m + 1 < m)%nat).
      { destruct (Nat.eq_dec (k mod m + 1) m) as [Ex|]; [|lia]. exfalso. apply Hk. replace (k + 1)%nat with (0 + (k / m + 1) * m)%nat by nia. rewrite Nat.mod_add by lia. apply Nat.mod_0_l. lia. }
      specialize (C2 _ Hk'). nia.
  Qed.

  (** *** C83 *)
  Theorem C83_predict : forall x data (t : tc S) r t', predict cf out x data t = (r, t') ->
    (right_size sizes x -> data <> [] -> exists ps, unflattened sizes x ps /\ r = TOk (map (out false ps) data)) /\
    (right_size sizes x -> data = [] -> r = TErr TRuntimeError) /\ (~ right_size sizes x -> r = TErr TValueError /\ t' = t) /\
    (t_used t', t_remaining t', t_iter t', t_draws t') = (t_used t, t_remaining t, t_iter t, t_draws t).
  Proof using Hm.
    clear Hb Hr Ho. intros x data t r t' E. unfold predict in E. destruct (C80_set_get x t) as [G1 G2].
    destruct (Nat.eq_dec (length x) (fold_right Nat.add 0%nat sizes)) as [Ex|Ex].
    - destruct (G1 Ex) as (t1 & E1 & _ & U & F). rewrite E1 in E. apply pair_equal_spec in E as [<- <-]. split; [|split; [|split; [|cbn; congruence]]].
      + intros _ Hd. exists (t_params t1). split; [exact U|]. destruct data as [|i data]; [congruence|]. destruct (chunks_ok (c_max cf) (i :: data) Hm) as (cs & Ec & C & _). rewrite Ec, <- concat_map, C. reflexivity.
      + intros _ ->. reflexivity.
      + intros H. exfalso. apply H. exact Ex.
    - rewrite (G2 Ex) in E. apply pair_equal_spec in E as [<- <-]. split; [intros H; contradiction|]. split; [intros H; contradiction|]. split; [auto|reflexivity].
  Qed.

  (** *** C84 *)
  Variables (opt_step : Opt -> list (list R) -> list (list R) -> list (list R) * Opt) (sched_step : Opt -> Opt).
  (** autograd returns one tensor per parameter, the optimizer keeps shapes *)
  Hypothesis Hg : forall mode ps B, shape ps -> B <> [] -> shape (grads mode ps B).
  Hypothesis Hopt : forall o ps g, shape ps -> shape g -> shape (fst (opt_step o ps g)).
  Local Notation train := (local_training cf grads randperm order opt_step sched_step).
  (** When every selection fits into [max_batch_size], local training makes
      [k] steps, one per iteration, each on the whole selection; it reports one
      gradient call per sample and steps the scheduler once. *)
  Theorem C84_training : forall ps0 ops x k r ix o calls, right_size sizes x -> allowed sizes r -> valid n ix ->
    (forall used, sel ix used -> (Z.of_nat (length used) <= c_max cf)%Z) ->
    exists ps ps' x' t' o' useds Bs, train x k r ix (snd (run ops (new_tc ps0))) (Some o) calls = (TOk (concat ps'), x', t', Some (sched_step o'), (calls + fold_right Nat.add 0 (map (@length Z) useds))%nat) /\
      unflattened sizes x ps /\ shape ps' /\ length Bs = k /\ Forall2 (names D) useds Bs /\ Forall (sel ix) useds /\ trained sizes grads opt_step r Bs ps o ps' o'.
  Proof using Hb Hm Hr Ho Hg Hopt.
    intros ps0 ops x k r ix o calls Hx A V Fit.
    destruct (training_ok cf grads randperm order opt_step Hb Hm Hr Ho Hg Hopt sched_step r ix k x (snd (run ops (new_tc ps0))) o calls) as (ps & ps' & t' & o' & useds & css & E & U & [_ U'] & Lk & F & T & _); auto.
    - apply steps_inv; auto. apply inv_new.
    - assert (G : exists Bs, css = map (fun B => [B]) Bs /\ Forall2 (names D) useds Bs /\ Forall (sel ix) useds).
      { clear - F Fit Hm. induction F as [|used cs useds css W F IH]; [exists []; repeat constructor|]. destruct IH as (Bs & -> & F1 & F2). destruct W as (W1 & W2 & _ & _ & W5). destruct W5 as [B ->]; [specialize (Fit used W1); lia|].
        cbn in W2. rewrite app_nil_r in W2. exists (B :: Bs). split; [reflexivity|]. split; constructor; assumption. }
      destruct G as (Bs & -> & G1 & G2). exists ps, ps', (concat ps'), t', o', useds, Bs. split; [exact E|]. split; [exact U|]. split; [exact U'|]. split; [now rewrite map_length in Lk|]. split; [exact G1|]. split; [exact G2|].
      replace Bs with (concat (map (fun B => [B]) Bs)); [exact T|]. clear. induction Bs; cbn; congruence.
  Qed.
  (** In general one iteration steps through the pieces of its selection. *)
  Theorem C84_pieces : forall ps0 ops x k r ix o calls, right_size sizes x -> allowed sizes r -> valid n ix ->
    exists ps ps' x' t' o' useds css, train x k r ix (snd (run ops (new_tc ps0))) (Some o) calls = (TOk (concat ps'), x', t', Some (sched_step o'), (calls + fold_right Nat.add 0 (map (@length Z) useds))%nat) /\
      unflattened sizes x ps /\ shape ps' /\ length css = k /\
      Forall2 (fun used cs => sel ix used /\ names D used (concat cs) /\ forall c, In c cs -> c <> [] /\ (Z.of_nat (length c) <= c_max cf)%Z) useds css /\ trained sizes grads opt_step r (concat css) ps o ps' o'.
  Proof using Hb Hm Hr Ho Hg Hopt.
    intros ps0 ops x k r ix o calls Hx A V.
    destruct (training_ok cf grads randperm order opt_step Hb Hm Hr Ho Hg Hopt sched_step r ix k x (snd (run ops (new_tc ps0))) o calls) as (ps & ps' & t' & o' & useds & css & E & U & [_ U'] & Lk & F & T & _); auto.
    - apply steps_inv; auto. apply inv_new.
    - exists ps, ps', (concat ps'), t', o', useds, css. split; [exact E|]. split; [exact U|]. split; [exact U'|]. split; [exact Lk|]. split; [|exact T].
      clear - F Hm. induction F as [|used cs useds css W F IH]; constructor; auto. destruct W as (W1 & W2 & _ & W4 & _). split; [exact W1|]. split; [exact W2|]. intros c I. destruct (W4 c I). split; [assumption|lia].
  Qed.
  (** Rejected calls: nothing is trained. *)
  Theorem C84_rejected : forall ps0 ops x k r ix o calls, let t := snd (run ops (new_tc ps0)) in
    (o = None -> train x k r ix t o calls = (TErr TRuntimeError, x, t, o, calls)) /\
    (o <> None -> ~ right_size sizes x -> train x k r ix t o calls = (TErr TValueError, x, t, o, calls)) /\
    (o <> None -> right_size sizes x -> (0 < k)%nat -> valid n ix ->
     (forall v, r = RTensor v -> length v <> 1%nat -> ~ right_size sizes v -> exists t', train x k r ix t o calls = (TErr TValueError, x, t', o, calls)) /\
     (r = RNotATensor -> exists t', train x k r ix t o calls = (TErr TTypeError, x, t', o, calls))).
  Proof using Hb Hm Hr Ho.
    clear Hg Hopt. intros ps0 ops x k r ix o calls t. assert (I : inv cf t) by (apply steps_inv; auto; apply inv_new). clearbody t. destruct (C80_set_get x t) as [G1 G2]. split; [|split].
    - intros ->. reflexivity.
    - intros Hn Hx. destruct o as [o|]; [|congruence]. unfold local_training. rewrite (G2 Hx). reflexivity.
    - intros Hn Hx Hk V. destruct o as [o|]; [|congruence]. destruct k as [|k]; [lia|]. unfold local_training. destruct (set_ok cf x t I) as [(_ & t1 & E & I1 & U)|(H & _)]; [|congruence]. rewrite E. cbn [train_loop].
      destruct (batch_ok cf randperm order Hb Hr Ho ix (with_training true t1) (inv_with_training cf true t1 I1)) as (q & t2 & Eq & I2 & [M1 _] & H). rewrite Eq. destruct q as [cs|e]; [|destruct H; [tauto|lia]].
      destruct H as (B & Ec & NB & _). destruct (chunks_ok (c_max cf) B Hm) as (cs' & E' & C & _). rewrite Ec in E'. injection E' as <-. destruct cs as [|c cs]; [cbn in C; congruence|]. cbn [train_batches].
      assert (U2 : concat (t_params t2) = x) by (rewrite M1; apply U). split.
      + intros v -> H1 H2. cbn [train_batch]. replace (length v =? 1)%nat with false by (symmetry; now apply Nat.eqb_neq). replace (length v =? total_params cf)%nat with false by (symmetry; apply Nat.eqb_neq; exact H2). cbn [t_params with_params]. rewrite U2. eauto.
      + intros ->. cbn [train_batch t_params with_params]. rewrite U2. eauto.
  Qed.
End Torch.

(** [max_batch_size] changes no answer and no later batch *)
Theorem C81_max_batch_size : forall {S In' Out} (loss : bool -> list (list R) -> list S -> R) grads (out : bool -> list (list R) -> In' -> Out) randperm order (cf : config S),
  (0 < c_batch cf <= n_samples cf)%nat -> (forall d, Permutation (randperm d) (seq 0 (n_samples cf))) -> (forall d, Permutation (order d) (seq 0 (n_samples cf))) ->
  mean_loss loss -> mean_grads (fun ps => map (@length R) ps = c_sizes cf) grads ->
  forall m m' ps0 ops, (0 < m)%Z -> (0 < m')%Z ->
  tsteps (with_max cf m) loss grads out randperm order ops (new_tc ps0) = tsteps (with_max cf m') loss grads out randperm order ops (new_tc ps0).
Proof.
  intros S In' Out loss grads out randperm order cf Hb Hr Ho ML MG m m' ps0 ops Hm Hm'. rewrite (steps_max loss grads out randperm order cf Hb Hr Ho ML MG m ops (new_tc ps0)) by (try assumption; apply inv_new).
  symmetry. apply steps_max; try assumption. apply inv_new.
Qed.

(** *** A concrete model: a line through points, two parameters *)
Definition residual (ps : list (list R)) (s : R * R) : R := nth 0 (concat ps) 0 + nth 1 (concat ps) 0 * fst s - snd s.
Definition line_loss (mode : bool) (ps : list (list R)) (B : list (R * R)) : R := rmean (map (fun s => residual ps s * residual ps s) B).
Definition line_grads (mode : bool) (ps : list (list R)) (B : list (R * R)) : list (list R) :=
  [[rmean (map (fun s => 2 * residual ps s) B)]; [rmean (map (fun s => 2 * residual ps s * fst s) B)]].
Definition line_out (mode : bool) (ps : list (list R)) (u : R) : R := nth 0 (concat ps) 0 + nth 1 (concat ps) 0 * u.
Lemma rmean_one : forall y, rmean [y] = y.
Proof. intros y. unfold rmean. rewrite rsum_cons, rsum_nil. cbn. field. Qed.
Lemma rmean_zero : forall {A} (B : list A), rmean (map (fun _ => 0) B) = 0.
Proof. intros A B. unfold rmean. replace (rsum (map (fun _ : A => 0) B)) with 0; [unfold Rdiv; ring|]. induction B; cbn [map]; [now rewrite rsum_nil|]. rewrite rsum_cons, <- IHB. ring. Qed.
Lemma line_mean_loss : mean_loss line_loss.
Proof. intros mode ps B _. unfold line_loss. f_equal. apply map_ext. intros s. cbn [map]. now rewrite rmean_one. Qed.
Lemma line_mean_grads : mean_grads (fun ps => map (@length R) ps = [1; 1]%nat) line_grads.
Proof.
  intros mode ps B _ _. split; [reflexivity|]. intros j. unfold line_grads. cbn [concat app map]. destruct j as [|[|j]]; cbn [nth].
  - f_equal. apply map_ext. intros s. now rewrite rmean_one.
  - f_equal. apply map_ext. intros s. now rewrite rmean_one.
  - destruct j; symmetry; apply rmean_zero.
Qed.
Definition line_data : list (R * R) := [(0, 1); (1, 3); (2, 8)].
Definition line_cf : config (R * R) := {| c_data := line_data; c_batch := 2; c_max := 2; c_loader := false; c_load := true; c_sizes := [1; 1]%nat |}.
Definition identity (d : nat) : list nat := seq 0 3.
Lemma line_hyps : (0 < c_batch line_cf <= n_samples line_cf)%nat /\ (0 < c_max line_cf)%Z /\ (forall d, Permutation (identity d) (seq 0 (n_samples line_cf))) /\ (c_batch line_cf < n_samples line_cf)%nat.
Proof. repeat split; try (cbn; lia). intros d. apply Permutation_refl. Qed.
Definition line_tc : tc (R * R) := new_tc [[5]; [6]].

Example C80_case : right_size (c_sizes line_cf) [1; 2] /\ ~ right_size (c_sizes line_cf) [1] /\
  t_params (snd (set_model_parameters line_cf [1; 2] line_tc)) = [[1]; [2]] /\ get_model_parameters (snd (set_model_parameters line_cf [1; 2] line_tc)) = [1; 2] /\ set_model_parameters line_cf [1] line_tc = (TErr TValueError, line_tc).
Proof. repeat split. discriminate. Qed.
Ltac work := cbn -[INR rmean line_loss line_grads]; change (Pos.to_nat 2) with 2%nat; change (Pos.to_nat 1) with 1%nat; cbn -[INR rmean];
  unfold line_loss, line_grads, sample_grad, line_out, rmean, residual; cbn.
(** the line [1 + 2 u] misses the last point by 3: the mean over the three
    points is 3, evaluated in pieces of two and one; the gradient is
    [(-2, -4)] *)
Example C81_case : fst (function line_cf line_loss identity identity [1; 2] IxAll line_tc) = TOk 3 /\ fst (gradient line_cf line_grads identity identity [1; 2] IxAll line_tc) = TOk [-2; -4] /\
  fst (per_sample_gradients line_cf line_grads identity identity [1; 2] (IxMany [-1; 0]%Z) line_tc) = TOk [[-6; -12]; [0; 0]] /\
  t_used (snd (function line_cf line_loss identity identity [1; 2] IxBatch line_tc)) = [0; 1]%Z /\ fst (function line_cf line_loss identity identity [1; 2] (IxMany [5]%Z) line_tc) = TErr TIndexError.
Proof.
  split; [|split; [|split; [|split]]]; try reflexivity.
  - work. f_equal. field.
  - work. repeat (f_equal; try field).
  - work. repeat (f_equal; try field).
Qed.
Definition ask : @top R := PGradient [1; 2] IxBatch.
(** two batches of two from three samples: with a remainder of one the second
    batch starts a new round; the loader makes rounds of two batches *)
Example C82_case : batches [ask; PPickle; ask] (fst (tsteps line_cf line_loss line_grads line_out identity identity [ask; PPickle; ask] line_tc)) = [[0; 1]; [0; 1]]%Z /\
  batches [ask; PFunction [1; 2] IxAll; ask; ask] (fst (tsteps {| c_data := line_data; c_batch := 2; c_max := 2; c_loader := true; c_load := true; c_sizes := [1; 1]%nat |} line_loss line_grads line_out identity identity [ask; PFunction [1; 2] IxAll; ask; ask] line_tc)) = [[0; 1]; [2]; [0; 1]]%Z.
Proof. split; reflexivity. Qed.
Example C83_case : fst (predict line_cf line_out [1; 2] [0; 3; 4] line_tc) = TOk [1; 7; 9] /\ fst (predict line_cf line_out [1; 2] [] line_tc) = TErr TRuntimeError.
Proof. split; [|reflexivity]. work. repeat (f_equal; try ring). Qed.
(** stochastic gradient descent with step 1 / 2 *)
Definition sgd (lr : R) (o : unit) (ps gs : list (list R)) : list (list R) * unit := (add_scaled (- lr) ps gs, o).
Lemma sgd_shape : forall lr sizes o ps g, map (@length R) ps = sizes -> map (@length R) g = sizes -> map (@length R) (fst (sgd lr o ps g)) = sizes.
Proof. intros lr sizes o ps g H1 H2. cbn. rewrite add_scaled_shape; congruence. Qed.
Example C84_case : (forall used, selects 3 2 false true IxBatch used -> (Z.of_nat (length used) <= c_max line_cf)%Z) /\ allowed [1; 1]%nat (RTensor [1; 1]) /\
  exists t', local_training line_cf line_grads identity identity (sgd (1 / 2)) (fun o => o) [1; 3] 1 (RTensor [10; 20]) IxBatch line_tc (Some tt) 7 = (TOk [-19 / 2; -35 / 2], [-19 / 2; -35 / 2], t', Some tt, 9%nat).
Proof.
  split; [|split].
  - intros used [[H _]|(_ & k & (_ & L & _) & H & _)]; [discriminate|]. cbn. lia.
  - right. reflexivity.
  - eexists. work. repeat (f_equal; try field).
Qed.

(** *** What fails *)
(** A list with as many entries as the (loaded) dataset is taken for the whole
    dataset: [0, 0] on two samples gives the mean over both, although the first
    sample alone has loss 0. *)
Definition two_cf (m : Z) : config (R * R) := {| c_data := [(0, 0); (0, 2)]; c_batch := 2; c_max := m; c_loader := false; c_load := true; c_sizes := [1; 1]%nat |}.
Theorem C81_list_of_full_length_refuted : exists (x : list R) (l : list Z) v t', valid 2 (IxMany l) /\ function (two_cf 2) line_loss identity identity x (IxMany l) (new_tc [[0]; [0]]) = (TOk v, t') /\
  exists B, names (c_data (two_cf 2)) l B /\ unflattened [1; 1]%nat x [[0]; [0]] /\ v <> rmean (map (fun s => line_loss false [[0]; [0]] [s]) B).
Proof.
  exists [0; 0], [0; 0]%Z. do 2 eexists. split; [split; [discriminate|]; intros i [<-|[<-|[]]]; cbn; lia|]. split; [reflexivity|]. exists [(0, 0); (0, 0)]. split; [|split; [split; reflexivity|]].
  - constructor; [split; [cbn; lia|reflexivity]|]. constructor; [split; [cbn; lia|reflexivity]|constructor].
  - work. lra.
Qed.
(** A negative [max_batch_size] is accepted, and every loss is then 0. *)
Theorem C81_negative_max_batch_size_refuted : forall (x : list R) ps0, length x = 2%nat -> fst (function (two_cf (-1)) line_loss identity identity x IxAll (new_tc ps0)) = TOk 0.
Proof. intros x ps0 H. unfold function, set_model_parameters, total_params. cbn [c_sizes two_cf fold_right]. rewrite H. cbn. f_equal. unfold Rdiv. ring. Qed.
(** Without a data loader the remainder of each round is dropped: batches need
    not ever cover the dataset.  If the permutations drawn end with the third
    sample, no batch of any history contains it. *)
Theorem C82_coverage_refuted : forall ops used, In used (batches ops (fst (tsteps line_cf line_loss line_grads line_out identity identity ops line_tc))) -> used = [0; 1]%Z.
Proof.
  intros ops used H. destruct (tsteps line_cf line_loss line_grads line_out identity identity ops line_tc) as [os t'] eqn:E. cbn [fst] in H. apply In_nth_error in H as [k Hk]. destruct line_hyps as (H1 & H2 & H3 & H4).
  rewrite (plain_order line_cf line_loss line_grads line_out identity identity H1 H2 H3 H3 eq_refl H4 [[5]; [6]] ops os t' E k used Hk). unfold plain_batch. change (n_samples line_cf / c_batch line_cf)%nat with 1%nat. rewrite Nat.mod_1_r. reflexivity.
Qed.
(** Local training depends on [max_batch_size]: every piece gets an optimizer
    step of its own. *)
Theorem C84_max_batch_size_refuted : exists x t1 t2 y1 y2, y1 <> y2 /\
  local_training (two_cf 2) line_grads identity identity (sgd (1 / 2)) (fun o => o) x 1 RNone IxAll (new_tc [[0]; [0]]) (Some tt) 0 = (TOk y1, y1, t1, Some tt, 2%nat) /\
  local_training (two_cf 1) line_grads identity identity (sgd (1 / 2)) (fun o => o) x 1 RNone IxAll (new_tc [[0]; [0]]) (Some tt) 0 = (TOk y2, y2, t2, Some tt, 2%nat).
Proof.
  exists [0; 0]. do 2 eexists. exists [1; 0], [2; 0]. split; [intros E; injection E; lra|]. split; work; repeat (f_equal; try field).
Qed.
(** The vector passed in is overwritten: after training, the caller's own [x]
    (second component) contains the result. *)
Theorem C84_argument_kept_refuted : forall {S Opt} (cf : config S) grads randperm order opt_step (sched_step : Opt -> Opt) x k r ix (t t' : tc S) o o' c c' y x',
  local_training cf grads randperm order opt_step sched_step x k r ix t o c = (TOk y, x', t', o', c') -> x' = y.
Proof.
  intros S Opt cf grads randperm order opt_step sched_step x k r ix t t' o o' c c' y x' E. unfold local_training in E. destruct o as [o|]; [|discriminate]. destruct (set_model_parameters cf x t) as [[u|e] t1]; [|discriminate].
  destruct (train_loop cf grads randperm order opt_step k r ix (with_training true t1) o c) as [[[q t2] o2] c2]. destruct q as [u'|e]; [|discriminate]. unfold get_model_parameters in E. congruence.
Qed.
(** For a model with one parameter the correction [x <- x - r] is not applied:
    a vector of one element is taken for a penalty. *)
Definition one_cf : config R := {| c_data := [0]; c_batch := 1; c_max := 1; c_loader := false; c_load := true; c_sizes := [1%nat] |}.
Theorem C84_single_parameter_refuted : exists t', right_size (c_sizes one_cf) [3] /\
  local_training one_cf (fun _ _ _ => [[0]]) identity identity (sgd 1) (fun o => o) [5] 1 (RTensor [3]) IxAll (new_tc [[0]]) (Some tt) 0 = (TOk [5], [5], t', Some tt, 1%nat).
Proof. eexists. split; [reflexivity|]. cbn. change (Pos.to_nat 1) with 1%nat. cbn. replace (5 + - (1) * 0) with 5 by ring. reflexivity. Qed.

Print Assumptions C80_set_get.
Print Assumptions C80_round_trip.
Print Assumptions C81_function.
Print Assumptions C81_gradient.
Print Assumptions C81_per_sample.
Print Assumptions C81_max_batch_size.
Print Assumptions C81_list_of_full_length_refuted.
Print Assumptions C81_negative_max_batch_size_refuted.
Print Assumptions C82_batches.
Print Assumptions C82_epochs.
Print Assumptions C82_coverage_refuted.
Print Assumptions C83_predict.
Print Assumptions C84_training.
Print Assumptions C84_pieces.
Print Assumptions C84_rejected.
Print Assumptions C84_max_batch_size_refuted.
Print Assumptions C84_argument_kept_refuted.
Print Assumptions C84_single_parameter_refuted.
