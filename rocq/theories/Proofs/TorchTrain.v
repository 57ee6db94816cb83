(** Local training of a [PyTorchCost]. *)
From Coq Require Import Reals List Bool Arith ZArith Permutation Lia Lra.
From Verif.Model Require Import Batch Vec TorchCost.
From Verif.Spec Require Import EmpiricalSpec TorchSpec.
From Verif.Proofs Require Import EmpiricalProofs TorchProofs TorchInv TorchCalls.
Import ListNotations.
Open Scope R_scope.

Lemma lsub_length : forall a b, length a = length b -> length (lsub a b) = length a.
Proof. intros a b H. unfold lsub. rewrite map_length, combine_length. lia. Qed.
Lemma nth_lsub : forall a b j, length a = length b -> nth j (lsub a b) 0 = nth j a 0 - nth j b 0.
Proof. unfold lsub. induction a as [|x a IH]; intros [|y b] j H; cbn in *; try discriminate; [destruct j; ring|]. destruct j; [reflexivity|]. apply IH. lia. Qed.
Lemma subs_ok : forall ps qs, map (@length R) qs = map (@length R) ps -> let r := map (fun p => lsub (fst p) (snd p)) (combine ps qs) in
  map (@length R) r = map (@length R) ps /\ forall j, nth j (concat r) 0 = nth j (concat ps) 0 - nth j (concat qs) 0.
Proof.
  induction ps as [|p ps IH]; intros [|v qs] H; cbn [combine map concat fst snd] in *; try discriminate; [split; [reflexivity|intros []; cbn; ring]|].
  injection H as H1 H2. destruct (IH qs H2) as [I1 I2]. assert (L : length (lsub p v) = length p) by (apply lsub_length; lia). split; [now rewrite L, I1|].
  intros j. destruct (lt_dec j (length p)) as [Hj|Hj].
  - rewrite !app_nth1 by lia. apply nth_lsub. lia.
  - rewrite !app_nth2 by lia. rewrite L, H1. apply I2.
Qed.

Section Train.
  Context {S Opt : Type}.
  Variables (cf : config S) (grads : bool -> list (list R) -> list S -> list (list R)).
  Variables (randperm order : nat -> list nat).
  Variables (opt_step : Opt -> list (list R) -> list (list R) -> list (list R) * Opt).
  Hypothesis Hb : (0 < c_batch cf <= n_samples cf)%nat.
  Hypothesis Hm : (0 < c_max cf)%Z.
  Hypothesis (Hr : forall d, Permutation (randperm d) (seq 0 (n_samples cf))) (Ho : forall d, Permutation (order d) (seq 0 (n_samples cf))).
  Local Notation D := (c_data cf).
  Local Notation n := (n_samples cf).
  Local Notation sizes := (c_sizes cf).
  Local Notation sel := (selects n (c_batch cf) (c_loader cf) (c_load cf)).
  Local Notation shape ps := (map (@length R) ps = sizes).
  Hypothesis Hg : forall mode ps B, shape ps -> B <> [] -> shape (grads mode ps B).
  Hypothesis Hopt : forall o ps g, shape ps -> shape g -> shape (fst (opt_step o ps g)).

  Lemma batch_trained : forall r B ps o, allowed sizes r -> shape ps -> B <> [] -> exists ps' o', train_batch cf grads opt_step r B ps o = TOk (ps', o') /\
    training_step sizes grads opt_step r B ps o ps' o' /\ shape ps'.
  Proof using Hg Hopt.
    clear Hb Hm Hr Ho. intros r B ps o A Sp NB. pose proof (Hg true ps B Sp NB) as Sg.
    assert (V : forall v, length v = 1%nat \/ right_size sizes v -> exists ps' o',
      (if (length v =? 1)%nat then TOk (opt_step o ps (grads true ps B)) else if (length v =? total_params cf)%nat then let '(ps, o) := opt_step o ps (grads true ps B) in TOk (map (fun p => lsub (fst p) (snd p)) (combine ps (split_sizes v (c_sizes cf))), o) else TErr TValueError) = TOk (ps', o') /\
      (exists ps1, opt_step o ps (grads true ps B) = (ps1, o') /\ corrected sizes v ps1 ps') /\ shape ps').
    { intros v Hv. pose proof (Hopt o ps _ Sp Sg) as So. destruct (opt_step o ps (grads true ps B)) as [ps1 o1]. cbn [fst] in So. unfold corrected. destruct (Nat.eqb_spec (length v) 1) as [E1|E1].
      - exists ps1, o1. split; [reflexivity|]. split; [|exact So]. exists ps1. auto.
      - destruct Hv as [Hv|Hv]; [congruence|]. unfold total_params. replace (length v =? fold_right Nat.add 0%nat (c_sizes cf))%nat with true by (symmetry; now apply Nat.eqb_eq).
        destruct (split_sizes_ok sizes v Hv) as [C1 C2]. destruct (subs_ok ps1 (split_sizes v sizes)) as [S1 S2]; [congruence|].
        do 2 eexists. split; [reflexivity|]. split; [|congruence]. exists ps1. split; [reflexivity|]. split; [congruence|]. rewrite C1 in S2. split; [rewrite !length_concat; congruence|]. split; [rewrite length_concat, So; exact Hv|].
        intros j. rewrite S2. ring. }
    destruct r as [|v|dr|f|]; cbn [train_batch allowed training_step] in *; cbv zeta in *.
    - pose proof (Hopt o ps _ Sp Sg) as So. destruct (opt_step o ps (grads true ps B)) as [ps1 o1]. eauto.
    - apply V. exact A.
    - specialize (A (concat ps)). assert (Sa : shape (add_scaled 1 (grads true ps B) (dr (concat ps)))) by (rewrite add_scaled_shape; congruence). pose proof (Hopt o ps _ Sp Sa) as So.
      destruct (opt_step o ps (add_scaled 1 (grads true ps B) (dr (concat ps)))) as [ps1 o1] eqn:Eo. exists ps1, o1. split; [reflexivity|]. split; [|exact So]. eexists. split; [|exact Eo]. split; [exact Sa|].
      split; [rewrite !length_concat; congruence|]. split; [rewrite !length_concat; congruence|]. intros j. apply concat_add_scaled. congruence.
    - destruct (V (f (concat ps)) (A (concat ps))) as (ps' & o' & E & V1 & V2). eauto.
    - contradiction.
  Qed.
  Lemma batches_trained : forall r Bs ps o, allowed sizes r -> shape ps -> (forall B, In B Bs -> B <> []) -> exists ps' o', train_batches cf grads opt_step r Bs ps o = (TOk tt, ps', o') /\
    trained sizes grads opt_step r Bs ps o ps' o' /\ shape ps'.
  Proof using Hg Hopt.
    intros r. induction Bs as [|B Bs IH]; intros ps o A Sp NB; cbn [train_batches]; [do 2 eexists; split; [reflexivity|]; split; [constructor|exact Sp]|].
    destruct (batch_trained r B ps o A Sp (NB B (or_introl eq_refl))) as (ps1 & o1 & E & T & S1). rewrite E. destruct (IH ps1 o1 A S1 (fun B' I => NB B' (or_intror I))) as (ps' & o' & E' & T' & S').
    exists ps', o'. split; [exact E'|]. split; [|exact S']. econstructor; eassumption.
  Qed.
  Lemma trained_app : forall r Bs1 Bs2 ps o ps1 o1 ps2 o2, trained sizes grads opt_step r Bs1 ps o ps1 o1 -> trained sizes grads opt_step r Bs2 ps1 o1 ps2 o2 -> trained sizes grads opt_step r (Bs1 ++ Bs2) ps o ps2 o2.
  Proof. intros r Bs1 Bs2 ps o ps1 o1 ps2 o2 H1 H2. induction H1; cbn; [exact H2|]. econstructor; eauto. Qed.

  (** what one iteration worked on: the sample numbers and the pieces in which
      they were processed *)
  Definition worked (ix : indices) (used : list Z) (cs : list (list S)) : Prop :=
    sel ix used /\ names D used (concat cs) /\ cs <> [] /\ (forall c, In c cs -> c <> [] /\ (length c <= Z.to_nat (c_max cf))%nat) /\ ((length used <= Z.to_nat (c_max cf))%nat -> exists B, cs = [B]).
  Lemma loop_ok : forall r ix k t o calls, allowed sizes r -> valid n ix -> inv cf t -> shape (t_params t) ->
    exists t' o' useds css, train_loop cf grads randperm order opt_step k r ix t o calls = (TOk tt, t', o', (calls + fold_right Nat.add 0 (map (@length Z) useds))%nat) /\
    length css = k /\ Forall2 (worked ix) useds css /\ trained sizes grads opt_step r (concat css) (t_params t) o (t_params t') o' /\ inv cf t' /\ shape (t_params t').
  Proof using Hb Hm Hr Ho Hg Hopt.
    intros r ix. induction k as [|k IH]; intros t o calls A V I Sp; cbn [train_loop].
    - exists t, o, [], []. cbn. rewrite Nat.add_0_r. split; [reflexivity|]. split; [reflexivity|]. split; [constructor|]. split; [constructor|]. auto.
    - destruct (batch_ok cf randperm order Hb Hr Ho ix t I) as (q & t1 & Eq & I1 & [M1 _] & H). rewrite Eq. destruct q as [cs|e]; [|destruct H; [tauto|lia]].
      destruct H as (B & Ec & NB & Na & Se). destruct (chunks_ok (c_max cf) B Hm) as (cs' & E' & C & L & Cn & Ln). rewrite Ec in E'. injection E' as <-.
      assert (Sp1 : shape (t_params t1)) by congruence.
      destruct (batches_trained r cs (t_params t1) o A Sp1) as (ps' & o1 & Et & T & S1); [intros c Ic; now destruct (L c Ic)|]. rewrite Et.
      destruct (IH (with_params ps' t1) o1 (calls + length (t_used (with_params ps' t1)))%nat A V (inv_with_params cf ps' t1 I1) S1) as (t' & o' & useds & css & E & Lk & F & T' & I' & S').
      exists t', o', (t_used t1 :: useds), (cs :: css). split; [rewrite E; cbn [map fold_right]; f_equal; cbn; lia|]. split; [cbn; now rewrite Lk|]. split; [|split; [|auto]].
      + constructor; [|exact F]. split; [exact Se|]. split; [now rewrite C|]. split; [intros ->; cbn in C; congruence|]. split; [exact L|]. intros Hle. rewrite (names_length _ _ _ Na) in Hle.
        assert (L1 : length cs = 1%nat).
        { rewrite Ln. assert (0 < length B)%nat by (destruct B; [congruence|cbn; lia]). symmetry. apply (Nat.div_unique _ _ 1 (length B - 1)); lia. }
        destruct cs as [|c [|c2 cs]]; try discriminate. eauto.
      + cbn [concat]. eapply trained_app; [|exact T']. rewrite <- M1. exact T.
  Qed.
  Variable sched_step : Opt -> Opt.
  Lemma training_ok : forall r ix k x t o calls, inv cf t -> allowed sizes r -> valid n ix -> right_size sizes x ->
    exists ps ps' t' o' useds css, local_training cf grads randperm order opt_step sched_step x k r ix t (Some o) calls = (TOk (concat ps'), concat ps', t', Some (sched_step o'), (calls + fold_right Nat.add 0 (map (@length Z) useds))%nat) /\
    unflattened sizes x ps /\ unflattened sizes (concat ps') ps' /\ length css = k /\ Forall2 (worked ix) useds css /\ trained sizes grads opt_step r (concat css) ps o ps' o' /\ inv cf t'.
  Proof using Hb Hm Hr Ho Hg Hopt.
    intros r ix k x t o calls I A V Hx. unfold local_training. destruct (set_ok cf x t I) as [(_ & t1 & E & I1 & U)|(H & _)]; [|congruence]. rewrite E.
    destruct (loop_ok r ix k (with_training true t1) o calls A V (inv_with_training cf true t1 I1) (proj2 U)) as (t' & o' & useds & css & El & Lk & F & T & I' & S'). rewrite El.
    exists (t_params t1), (t_params t'), t', o', useds, css. split; [reflexivity|]. split; [exact U|]. split; [split; [reflexivity|exact S']|]. auto.
  Qed.
End Train.
