(** [max_batch_size] does not change what a [PyTorchCost] answers. *)
From Coq Require Import Reals List Bool Arith ZArith Permutation Lia Lra.
From Verif.Model Require Import Batch Vec TorchCost.
From Verif.Spec Require Import EmpiricalSpec TorchSpec.
From Verif.Proofs Require Import EmpiricalProofs TorchProofs TorchInv TorchCalls.
Import ListNotations.
Open Scope R_scope.

Section Max.
  Context {S In' Out : Type}.
  Variables (loss : bool -> list (list R) -> list S -> R) (grads : bool -> list (list R) -> list S -> list (list R)) (out : bool -> list (list R) -> In' -> Out).
  Variables (randperm order : nat -> list nat) (cf : config S).
  Definition with_max (m : Z) : config S := {| c_data := c_data cf; c_batch := c_batch cf; c_max := m; c_loader := c_loader cf; c_load := c_load cf; c_sizes := c_sizes cf |}.
  Hypothesis Hb : (0 < c_batch cf <= n_samples cf)%nat.
  Hypothesis (Hr : forall d, Permutation (randperm d) (seq 0 (n_samples cf))) (Ho : forall d, Permutation (order d) (seq 0 (n_samples cf))).
  Hypothesis (ML : mean_loss loss) (MG : mean_grads (fun ps => map (@length R) ps = c_sizes cf) grads).

  Lemma names_unique : forall (D : list S) l B B', names D l B -> names D l B' -> B = B'.
  Proof. clear. intros D l B B' H H'. apply pygets_names in H, H'. congruence. Qed.
  Lemma unflattened_unique : forall sizes x ps ps', unflattened sizes x ps -> unflattened sizes x ps' -> ps = ps'.
  Proof. clear. intros sizes x ps ps' [H1 H2] [H1' H2']. rewrite <- (split_sizes_concat ps), <- (split_sizes_concat ps'). congruence. Qed.

  Lemma data_max : forall m ix t, (0 < m)%Z -> snd (get_batch_data (with_max m) randperm order ix t) = snd (get_batch_data (with_max 1) randperm order ix t) /\
    match fst (get_batch_data (with_max m) randperm order ix t), fst (get_batch_data (with_max 1) randperm order ix t) with TOk _, TOk _ => True | TErr e, TErr e' => e = e' | _, _ => False end.
  Proof using Type.
    clear. intros m ix t Hm. unfold get_batch_data. change (handle_indices (with_max m) randperm order ix t) with (handle_indices (with_max 1) randperm order ix t).
    destruct (handle_indices (with_max 1) randperm order ix t) as [[[B used]|e] t']; [|split; reflexivity]. cbn [c_max with_max].
    destruct (chunks_ok m B Hm) as (cs & E & _). destruct (chunks_ok 1 B ltac:(lia)) as (cs' & E' & _). rewrite E, E'. split; [reflexivity|exact I].
  Qed.
  Lemma step_max : forall m op t, (0 < m)%Z -> inv cf t -> tstep (with_max m) loss grads out randperm order op t = tstep (with_max 1) loss grads out randperm order op t.
  Proof using Hb Hr Ho ML MG.
    intros m op t Hm I.
    assert (Shape : forall {A} (f : tc S -> list (list S) -> A) mode x ix,
      let run c := let '(r, t) := set_model_parameters (with_max c) x t in match r with TErr e => (TErr e, t) | TOk _ => let t := with_training mode t in let '(r, t) := get_batch_data (with_max c) randperm order ix t in (match r with TErr e => TErr e | TOk bs => TOk (f t bs) end, t) end in
      snd (run m) = snd (run 1%Z) /\ match fst (run m), fst (run 1%Z) with TOk _, TOk _ => True | TErr e, TErr e' => e = e' | _, _ => False end).
    { intros A f mode x ix. cbv beta zeta. change (set_model_parameters (with_max m) x t) with (set_model_parameters (with_max 1) x t). destruct (set_model_parameters (with_max 1) x t) as [[u|e] t1]; [|split; reflexivity].
      destruct (data_max m ix (with_training mode t1) Hm) as [D1 D2]. destruct (get_batch_data (with_max m) randperm order ix (with_training mode t1)) as [r t2]. destruct (get_batch_data (with_max 1) randperm order ix (with_training mode t1)) as [r' t2']. cbn [fst snd] in *. subst t2'.
      split; [reflexivity|]. destruct r, r'; auto. }
    assert (Pair : forall {A} (p p' : tres A * tc S), snd p = snd p' -> fst p = fst p' -> p = p') by (intros A [] []; cbn; congruence).
    destruct op as [x ix|x ix|x ix|x data|]; cbn [tstep].
    - assert (E : function (with_max m) loss randperm order x ix t = function (with_max 1) loss randperm order x ix t).
      { destruct (Shape _ (fun t bs => fold_left (fun a B => a + loss false (t_params t) B * INR (length B)) bs 0 / INR (length (t_used t))) false x ix) as [S1 S2]. change (snd (function (with_max m) loss randperm order x ix t) = snd (function (with_max 1) loss randperm order x ix t)) in S1. change (match fst (function (with_max m) loss randperm order x ix t), fst (function (with_max 1) loss randperm order x ix t) with TOk _, TOk _ => True | TErr e, TErr e' => e = e' | _, _ => False end) in S2.
        apply Pair; [exact S1|]. destruct (function_ok (with_max m) loss randperm order Hb Hm Hr Ho ML x ix t I) as (r & t' & E & _ & H). destruct (function_ok (with_max 1) loss randperm order Hb ltac:(reflexivity) Hr Ho ML x ix t I) as (r' & t'' & E' & _ & H').
        rewrite E, E' in *. cbn [fst snd] in *. subst t''. destruct r as [v|e], r' as [v'|e']; try contradiction; [|congruence].
        destruct H as (_ & ps & B & U & Na & _ & _ & ->). destruct H' as (_ & ps' & B' & U' & Na' & _ & _ & ->). rewrite (names_unique _ _ _ _ Na Na'), (unflattened_unique _ _ _ _ U U'). reflexivity. }
      now rewrite E.
    - assert (E : gradient (with_max m) grads randperm order x ix t = gradient (with_max 1) grads randperm order x ix t).
      { assert (S12 : snd (gradient (with_max m) grads randperm order x ix t) = snd (gradient (with_max 1) grads randperm order x ix t) /\ match fst (gradient (with_max m) grads randperm order x ix t), fst (gradient (with_max 1) grads randperm order x ix t) with TOk _, TOk _ => True | TErr e, TErr e' => e = e' | _, _ => False end).
        { destruct (Shape _ (fun (_ : tc S) (_ : list (list S)) => tt) true x ix) as [S1 S2]. revert S1 S2. unfold gradient. destruct (set_model_parameters (with_max m) x t) as [[u|e] t1], (set_model_parameters (with_max 1) x t) as [[u'|e'] t1']; cbn [fst snd]; auto.
          + destruct (get_batch_data (with_max m) randperm order ix (with_training true t1)) as [[[|c [|c2 cs]]|e] t2], (get_batch_data (with_max 1) randperm order ix (with_training true t1')) as [[[|c' [|c2' cs']]|e'] t2']; cbn [fst snd]; auto.
          + destruct (get_batch_data (with_max m) randperm order ix (with_training true t1)) as [[[|c [|c2 cs]]|e] t2]; cbn [fst snd]; auto.
          + destruct (get_batch_data (with_max 1) randperm order ix (with_training true t1')) as [[[|c' [|c2' cs']]|e'] t2']; cbn [fst snd]; auto. }
        destruct S12 as [S1 S2]. apply Pair; [exact S1|]. destruct (gradient_ok (with_max m) grads randperm order Hb Hm Hr Ho MG x ix t I) as (r & t' & E & _ & H). destruct (gradient_ok (with_max 1) grads randperm order Hb ltac:(reflexivity) Hr Ho MG x ix t I) as (r' & t'' & E' & _ & H').
        rewrite E, E' in *. cbn [fst snd] in *. subst t''. destruct r as [v|e], r' as [v'|e']; try contradiction; [|congruence].
        destruct H as (_ & ps & B & U & Na & _ & _ & L & V). destruct H' as (_ & ps' & B' & U' & Na' & _ & _ & L' & V'). pose proof (names_unique _ _ _ _ Na Na') as <-. pose proof (unflattened_unique _ _ _ _ U U') as <-.
        f_equal. apply list_nth_ext; [congruence|]. intros j. now rewrite V, V'. }
      now rewrite E.
    - assert (E : per_sample_gradients (with_max m) grads randperm order x ix t = per_sample_gradients (with_max 1) grads randperm order x ix t).
      { destruct (Shape _ (fun t bs => concat (map (map (sample_grad grads (t_params t))) bs)) true x ix) as [S1 S2]. change (snd (per_sample_gradients (with_max m) grads randperm order x ix t) = snd (per_sample_gradients (with_max 1) grads randperm order x ix t)) in S1. change (match fst (per_sample_gradients (with_max m) grads randperm order x ix t), fst (per_sample_gradients (with_max 1) grads randperm order x ix t) with TOk _, TOk _ => True | TErr e, TErr e' => e = e' | _, _ => False end) in S2.
        apply Pair; [exact S1|]. destruct (samples_ok (with_max m) grads randperm order Hb Hm Hr Ho x ix t I) as (r & t' & E & _ & H). destruct (samples_ok (with_max 1) grads randperm order Hb ltac:(reflexivity) Hr Ho x ix t I) as (r' & t'' & E' & _ & H').
        rewrite E, E' in *. cbn [fst snd] in *. subst t''. destruct r as [v|e], r' as [v'|e']; try contradiction; [|congruence].
        destruct H as (_ & ps & B & U & Na & _ & _ & ->). destruct H' as (_ & ps' & B' & U' & Na' & _ & _ & ->). rewrite (names_unique _ _ _ _ Na Na'), (unflattened_unique _ _ _ _ U U'). reflexivity. }
      now rewrite E.
    - assert (E : predict (with_max m) out x data t = predict (with_max 1) out x data t).
      { unfold predict. change (set_model_parameters (with_max m) x t) with (set_model_parameters (with_max 1) x t). destruct (set_model_parameters (with_max 1) x t) as [[u|e] t1]; [|reflexivity]. f_equal. destruct data as [|i data]; [reflexivity|].
        cbn [c_max with_max]. destruct (chunks_ok m (i :: data) Hm) as (cs & E & C & _). destruct (chunks_ok 1 (i :: data) ltac:(lia)) as (cs' & E' & C' & _). rewrite E, E'. f_equal. rewrite <- !concat_map. congruence. }
      now rewrite E.
    - reflexivity.
  Qed.
  Lemma steps_max : forall m ops t, (0 < m)%Z -> inv cf t -> tsteps (with_max m) loss grads out randperm order ops t = tsteps (with_max 1) loss grads out randperm order ops t.
  Proof using Hb Hr Ho ML MG.
    intros m. induction ops as [|op ops IH]; intros t Hm I; cbn [tsteps]; [reflexivity|]. rewrite (step_max m op t Hm I).
    pose proof (step_inv (with_max 1) loss grads out randperm order Hb ltac:(reflexivity) Hr Ho op t I) as I'. destruct (tstep (with_max 1) loss grads out randperm order op t) as [o t']. cbn [snd] in I'. now rewrite (IH t' Hm I').
  Qed.
End Max.
