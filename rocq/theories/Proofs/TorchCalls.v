(** What one call on a [PyTorchCost] computes. *)
From Coq Require Import Reals List Bool Arith ZArith Permutation Lia Lra.
From Verif.Model Require Import Batch Vec TorchCost.
From Verif.Spec Require Import EmpiricalSpec TorchSpec.
From Verif.Proofs Require Import EmpiricalProofs TorchProofs TorchInv.
Import ListNotations.
Open Scope R_scope.

Section Calls.
  Context {S In' Out : Type}.
  Variables (cf : config S) (loss : bool -> list (list R) -> list S -> R) (grads : bool -> list (list R) -> list S -> list (list R)) (out : bool -> list (list R) -> In' -> Out).
  Variables (randperm order : nat -> list nat).
  Hypothesis Hb : (0 < c_batch cf <= n_samples cf)%nat.
  Hypothesis Hm : (0 < c_max cf)%Z.
  Hypothesis (Hr : forall d, Permutation (randperm d) (seq 0 (n_samples cf))) (Ho : forall d, Permutation (order d) (seq 0 (n_samples cf))).
  Local Notation D := (c_data cf).
  Local Notation n := (n_samples cf).
  Local Notation sel := (selects n (c_batch cf) (c_loader cf) (c_load cf)).
  Local Notation sizes := (c_sizes cf).

  (** common shape of the three evaluations *)
  Lemma call_ok : forall mode x ix t, inv cf t ->
    exists r t1 t', set_model_parameters cf x t = (r, t1) /\
    match r with
    | TErr _ => t1 = t /\ t' = t /\ ~ right_size sizes x
    | TOk _ => exists q, get_batch_data cf randperm order ix (with_training mode t1) = (q, t') /\ inv cf t' /\ unflattened sizes x (t_params t') /\ right_size sizes x /\
        match q with
        | TOk cs => exists B, chunks (c_max cf) B = Some cs /\ concat cs = B /\ (forall c, In c cs -> c <> []) /\ B <> [] /\ names D (t_used t') B /\ sel ix (t_used t') /\ length (t_used t') = length B
        | TErr _ => ~ valid n ix
        end
    end.
  Proof using Hb Hm Hr Ho.
    intros mode x ix t I. destruct (set_ok cf x t I) as [(Hx & t1 & E & I1 & U)|(Hx & E)].
    - destruct (batch_ok cf randperm order Hb Hr Ho ix (with_training mode t1) (inv_with_training cf mode t1 I1)) as (q & t' & Eq & I' & [M1 _] & H).
      exists (TOk tt), t1, t'. split; [exact E|]. exists q. split; [exact Eq|]. split; [exact I'|]. split; [rewrite M1; exact U|]. split; [exact Hx|].
      destruct q as [cs|e]; [|destruct H as [H|H]; [exact H|lia]]. destruct H as (B & Ec & NB & Na & Se). destruct (chunks_ok (c_max cf) B Hm) as (cs' & E' & C & L & _).
      rewrite Ec in E'. injection E' as <-. exists B. split; [exact Ec|]. split; [exact C|]. split; [intros c Ic; now destruct (L c Ic)|]. split; [exact NB|]. split; [exact Na|]. split; [exact Se|]. eapply names_length; exact Na.
    - exists (TErr TValueError), t, t. split; [exact E|]. auto.
  Qed.

  Lemma function_ok : mean_loss loss -> forall x ix t, inv cf t -> exists r t', function cf loss randperm order x ix t = (r, t') /\ inv cf t' /\
    match r with
    | TOk v => right_size sizes x /\ exists ps B, unflattened sizes x ps /\ names D (t_used t') B /\ B <> [] /\ sel ix (t_used t') /\ v = rmean (map (fun s => loss false ps [s]) B)
    | TErr _ => ~ (right_size sizes x /\ valid n ix)
    end.
  Proof using Hb Hm Hr Ho.
    intros ML x ix t I. destruct (call_ok false x ix t I) as (r & t1 & t' & E & H). unfold function. rewrite E. destruct r as [u|e].
    - destruct H as (q & Eq & I' & U & Hx & H). rewrite Eq. do 2 eexists. split; [reflexivity|]. split; [exact I'|]. destruct q as [cs|e]; [|tauto].
      destruct H as (B & Ec & C & Nc & NB & Na & Se & Le). split; [exact Hx|]. exists (t_params t'), B. split; [exact U|]. split; [exact Na|]. split; [exact NB|]. split; [exact Se|].
      rewrite (weighted_total (loss false (t_params t')) (fun s => loss false (t_params t') [s])); [|intros; now apply ML|exact Nc]. rewrite C, Le. unfold rmean. rewrite map_length. lra.
    - destruct H as (-> & -> & Hx). do 2 eexists. split; [reflexivity|]. split; [exact I|]. tauto.
  Qed.
  Lemma list_nth_ext : forall (a b : list R), length a = length b -> (forall j, nth j a 0 = nth j b 0) -> a = b.
  Proof. intros a b H1 H2. apply (nth_ext a b 0 0); auto. Qed.
  Lemma gradient_ok : mean_grads (fun ps => map (@length R) ps = sizes) grads -> forall x ix t, inv cf t -> exists r t', gradient cf grads randperm order x ix t = (r, t') /\ inv cf t' /\
    match r with
    | TOk v => right_size sizes x /\ exists ps B, unflattened sizes x ps /\ names D (t_used t') B /\ B <> [] /\ sel ix (t_used t') /\
        length v = length x /\ forall j, nth j v 0 = rmean (map (fun s => nth j (concat (grads true ps [s])) 0) B)
    | TErr _ => ~ (right_size sizes x /\ valid n ix)
    end.
  Proof using Hb Hm Hr Ho.
    intros MG x ix t I. destruct (call_ok true x ix t I) as (r & t1 & t' & E & H). unfold gradient. rewrite E. destruct r as [u|e].
    - destruct H as (q & Eq & I' & U & Hx & H). rewrite Eq. do 2 eexists. split; [reflexivity|]. split; [exact I'|]. destruct q as [cs|e]; [|tauto].
      destruct H as (B & Ec & C & Nc & NB & Na & Se & Le).
      assert (Sh : map (@length R) (t_params t') = sizes) by apply U.
      assert (G : forall v, (map (@length R) v = sizes /\ forall j, nth j (concat v) 0 = rmean (map (fun s => nth j (concat (grads true (t_params t') [s])) 0) B)) ->
        right_size sizes x /\ exists ps B, unflattened sizes x ps /\ names D (t_used t') B /\ B <> [] /\ sel ix (t_used t') /\ length (concat v) = length x /\ forall j, nth j (concat v) 0 = rmean (map (fun s => nth j (concat (grads true ps [s])) 0) B)).
      { intros v [V1 V2]. split; [exact Hx|]. exists (t_params t'), B. split; [exact U|]. split; [exact Na|]. split; [exact NB|]. split; [exact Se|]. split; [|exact V2]. rewrite length_concat, V1. symmetry. exact Hx. }
      assert (F : map (@length R) (fold_left (fun acc B0 => add_scaled (INR (length B0) * (1 / INR (length (t_used t')))) acc (grads true (t_params t') B0)) cs (zeros_like (t_params t'))) = sizes /\
        forall j, nth j (concat (fold_left (fun acc B0 => add_scaled (INR (length B0) * (1 / INR (length (t_used t')))) acc (grads true (t_params t') B0)) cs (zeros_like (t_params t')))) 0 = rmean (map (fun s => nth j (concat (grads true (t_params t') [s])) 0) B)).
      { destruct (grads_fold sizes (grads true (t_params t')) (fun s => grads true (t_params t') [s]) (1 / INR (length (t_used t'))) cs (zeros_like (t_params t'))) as [F1 F2].
        - rewrite zeros_shape. exact Sh.
        - intros c Ic. split; [now apply Nc|]. apply MG; [exact Sh|now apply Nc].
        - split; [exact F1|]. intros j. rewrite F2, nth_zeros, C, Le. unfold rmean. rewrite map_length. lra. }
      destruct cs as [|c [|c2 cs]]; [apply G; exact F| |apply G; exact F]. cbn in C. rewrite app_nil_r in C. subst c. apply G. apply MG; [exact Sh|exact NB].
    - destruct H as (-> & -> & Hx). do 2 eexists. split; [reflexivity|]. split; [exact I|]. tauto.
  Qed.
  Lemma samples_ok : forall x ix t, inv cf t -> exists r t', per_sample_gradients cf grads randperm order x ix t = (r, t') /\ inv cf t' /\
    match r with
    | TOk rows => right_size sizes x /\ exists ps B, unflattened sizes x ps /\ names D (t_used t') B /\ B <> [] /\ sel ix (t_used t') /\ rows = map (fun s => concat (grads true ps [s])) B
    | TErr _ => ~ (right_size sizes x /\ valid n ix)
    end.
  Proof using Hb Hm Hr Ho.
    intros x ix t I. destruct (call_ok true x ix t I) as (r & t1 & t' & E & H). unfold per_sample_gradients. rewrite E. destruct r as [u|e].
    - destruct H as (q & Eq & I' & U & Hx & H). rewrite Eq. do 2 eexists. split; [reflexivity|]. split; [exact I'|]. destruct q as [cs|e]; [|tauto].
      destruct H as (B & Ec & C & Nc & NB & Na & Se & Le). split; [exact Hx|]. exists (t_params t'), B. split; [exact U|]. split; [exact Na|]. split; [exact NB|]. split; [exact Se|].
      rewrite <- C, <- concat_map. reflexivity.
    - destruct H as (-> & -> & Hx). do 2 eexists. split; [reflexivity|]. split; [exact I|]. tauto.
  Qed.
  Lemma predict_ok : forall x data t, inv cf t -> exists r t', predict cf out x data t = (r, t') /\ inv cf t' /\
    match r with
    | TOk ys => right_size sizes x /\ exists ps, unflattened sizes x ps /\ ys = map (out false ps) data
    | TErr e => (e = TValueError /\ ~ right_size sizes x) \/ (e = TRuntimeError /\ data = [])
    end /\ (right_size sizes x -> data <> [] -> exists ys, r = TOk ys) /\
    t_used t' = t_used t /\ t_remaining t' = t_remaining t /\ t_iter t' = t_iter t /\ t_draws t' = t_draws t.
  Proof using Hm.
    clear Hb Hr Ho. intros x data t I. unfold predict. destruct (set_ok cf x t I) as [(Hx & t1 & E & I1 & U)|(Hx & E)]; pose proof E as E0; rewrite E.
    - unfold set_model_parameters in E0. destruct (length x =? total_params cf)%nat; [|discriminate]. injection E0 as E0. subst t1.
      do 2 eexists. split; [reflexivity|]. split; [exact I1|]. split; [|split; [|repeat split]].
      + destruct data as [|i data]; [right; auto|]. destruct (chunks_ok (c_max cf) (i :: data) Hm) as (cs & Ec & C & _). rewrite Ec. split; [exact Hx|]. eexists. split; [exact U|]. rewrite <- concat_map, C. reflexivity.
      + intros _ Hd. destruct data as [|i data]; [congruence|]. destruct (chunks_ok (c_max cf) (i :: data) Hm) as (cs & Ec & C & _). rewrite Ec. eauto.
    - do 2 eexists. split; [reflexivity|]. split; [exact I|]. split; [left; auto|]. split; [tauto|]. auto.
  Qed.
  Lemma step_inv : forall op t, inv cf t -> inv cf (snd (tstep cf loss grads out randperm order op t)).
  Proof using Hb Hm Hr Ho.
    intros op t I. destruct op as [x ix|x ix|x ix|x data|]; cbn [tstep].
    - destruct (call_ok false x ix t I) as (r & t1 & t' & E & H). unfold function. rewrite E. destruct r as [u|e]; [|cbn; destruct H as (-> & _); exact I]. destruct H as (q & Eq & I' & _). rewrite Eq. exact I'.
    - destruct (call_ok true x ix t I) as (r & t1 & t' & E & H). unfold gradient. rewrite E. destruct r as [u|e]; [|cbn; destruct H as (-> & _); exact I]. destruct H as (q & Eq & I' & _). rewrite Eq. exact I'.
    - destruct (samples_ok x ix t I) as (r & t' & E & I' & _). rewrite E. exact I'.
    - destruct (predict_ok x data t I) as (r & t' & E & I' & _). rewrite E. exact I'.
    - apply inv_pickled; assumption.
  Qed.
  Lemma steps_inv : forall ops t, inv cf t -> inv cf (snd (tsteps cf loss grads out randperm order ops t)).
  Proof using Hb Hm Hr Ho.
    induction ops as [|op ops IH]; intros t I; cbn [tsteps]; [exact I|]. pose proof (step_inv op t I) as I'. destruct (tstep cf loss grads out randperm order op t) as [o t']. cbn [snd] in I'.
    specialize (IH t' I'). destruct (tsteps cf loss grads out randperm order ops t') as [os t'']. exact IH.
  Qed.
End Calls.
