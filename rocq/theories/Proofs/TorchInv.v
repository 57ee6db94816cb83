(** The states of a [PyTorchCost] that calls can reach. *)
From Coq Require Import Reals List Bool Arith ZArith Permutation Lia Lra.
From Verif.Model Require Import Batch Vec TorchCost.
From Verif.Spec Require Import EmpiricalSpec TorchSpec.
From Verif.Proofs Require Import EmpiricalProofs TorchProofs.
Import ListNotations.
Open Scope R_scope.

Lemma zs_samples : forall n b, NoDup b -> (forall i, In i b -> (i < n)%nat) -> samples_of_size n (length b) (zs b).
Proof.
  intros n b N H. split; [apply FinFun.Injective_map_NoDup; [exact Nat2Z.inj|exact N]|]. split; [unfold zs; now rewrite map_length|].
  intros i I. apply in_map_iff in I as (j & <- & I). apply H in I. lia.
Qed.
Lemma zs_names : forall {S} (D : list S) b, (forall i, In i b -> (i < length D)%nat) -> exists B, pygets D (zs b) = Some B /\ names D (zs b) B.
Proof.
  intros S D b H. destruct (names_total D (zs b)) as [B HB]; [|exists B; split; [now apply pygets_names|exact HB]]. intros i I. apply in_map_iff in I as (j & <- & I). apply H in I. lia.
Qed.
Lemma indexable_range : forall n, indexable n (zs (seq 0 n)).
Proof. intros n i I. apply in_map_iff in I as (j & <- & I). apply in_seq in I. lia. Qed.
Lemma range_nonempty : forall n, (0 < n)%nat -> zs (seq 0 n) <> [].
Proof. intros n H E. apply (f_equal (@length Z)) in E. unfold zs in E. rewrite map_length, seq_length in E. cbn in E. lia. Qed.
Lemma NoDup_concat_in : forall {A} (cs : list (list A)) c, NoDup (concat cs) -> In c cs -> NoDup c.
Proof.
  intros A. assert (G1 : forall (a b : list A), NoDup (a ++ b) -> NoDup a /\ NoDup b).
  { induction a as [|x a IH]; intros b N; [split; [constructor|exact N]|]. cbn in N. inversion N as [|? ? N1 N2]; subst. destruct (IH _ N2). split; [|assumption]. constructor; [|assumption]. intros I. apply N1, in_or_app. now left. }
  induction cs as [|c0 cs IH]; intros c N []; cbn in N; apply G1 in N as [N1 N2]; subst; auto.
Qed.

Section Inv.
  Context {S In' Out : Type}.
  Variables (cf : config S) (loss : bool -> list (list R) -> list S -> R) (grads : bool -> list (list R) -> list S -> list (list R)) (out : bool -> list (list R) -> In' -> Out).
  Variables (randperm order : nat -> list nat).
  Hypothesis Hb : (0 < c_batch cf <= n_samples cf)%nat.
  Hypothesis (Hr : forall d, Permutation (randperm d) (seq 0 (n_samples cf))) (Ho : forall d, Permutation (order d) (seq 0 (n_samples cf))).
  Local Notation D := (c_data cf).
  Local Notation n := (n_samples cf).
  Local Notation sel := (selects n (c_batch cf) (c_loader cf) (c_load cf)).

  Definition good_batch (b : list nat) : Prop := b <> [] /\ NoDup b /\ (forall i, In i b -> (i < n)%nat) /\ (length b <= c_batch cf)%nat.
  Definition inv (t : tc S) : Prop :=
    (forall B, t_cache t = Some B -> B <> [] /\ names D (t_used t) B) /\
    NoDup (t_remaining t) /\ (forall i, In i (t_remaining t) -> (i < n)%nat) /\
    (forall bs b, t_iter t = Some bs -> In b bs -> good_batch b).
  Definition same_model (t t' : tc S) : Prop := t_params t' = t_params t /\ t_training t' = t_training t.

  Lemma inv_new : forall ps, inv (new_tc ps).
  Proof. intros ps. repeat split; cbn; try discriminate; try contradiction; constructor. Qed.
  Lemma loader_batches_ok : forall d, loader_batches cf order d <> [] /\ forall b, In b (loader_batches cf order d) -> good_batch b.
  Proof using Hb Ho.
    intros d. unfold loader_batches. destruct (chunks_ok (Z.of_nat (c_batch cf)) (order d) ltac:(lia)) as (cs & E & C & L & _). rewrite E.
    assert (N : NoDup (order d)) by (eapply Permutation_NoDup; [symmetry; apply Ho|apply seq_NoDup]).
    assert (I : forall i, In i (order d) -> (i < n)%nat) by (intros i I; apply (Permutation_in i (Ho d)) in I; apply in_seq in I; lia).
    split.
    - intros ->. cbn in C. assert (Hl : length (order d) = n_samples cf) by (rewrite (Permutation_length (Ho d)); apply seq_length). rewrite <- C in Hl. cbn in Hl. lia.
    - intros b Ib. destruct (L b Ib) as [L1 L2]. rewrite <- C in N, I. split; [exact L1|]. split; [|split; [|rewrite Nat2Z.id in L2; exact L2]].
      + eapply NoDup_concat_in; eauto.
      + intros i Ii. apply I. apply in_concat. eauto.
  Qed.
  Definition uncached_list (l : list Z) : tres (list S * list Z) :=
    if (length l =? n)%nat && c_load cf then match D with [] => TErr TValueError | D0 => TOk (D0, zs (seq 0 n)) end
    else match l with [] => TErr TValueError | _ => match pygets D l with Some B => TOk (B, l) | None => TErr TIndexError end end.
  Lemma list_cases : forall l (t : tc S), (exists B, t_cache t = Some B /\ l = t_used t /\ handle_list cf l t = TOk (B, l)) \/ handle_list cf l t = uncached_list l.
  Proof.
    intros l t. unfold handle_list, listz_eqb. destruct (list_eq_dec Z.eq_dec l (t_used t)) as [->|]; [|right; reflexivity]. destruct (t_cache t) as [B|]; [|right; reflexivity]. left. exists B. auto.
  Qed.
  Lemma list_ok : forall l t, inv t -> forall B used, handle_list cf l t = TOk (B, used) -> B <> [] /\ names D used B /\ selects_list n (c_load cf) l used.
  Proof using Type.
    clear Hb Hr Ho. intros l t (I1 & _) B used E. destruct (list_cases l t) as [(C & Ec & El & E')|E'].
    - rewrite E in E'. assert (B = C /\ used = l) as [-> ->] by (split; congruence). destruct (I1 C Ec) as [H1 H2]. rewrite <- El in H2. split; [exact H1|]. split; [exact H2|]. now left.
    - rewrite E in E'. unfold uncached_list in E'. revert E'. destruct ((length l =? n_samples cf)%nat && c_load cf) eqn:Ef.
      + apply andb_true_iff in Ef as [F1 F2]. apply Nat.eqb_eq in F1. unfold n_samples in *. destruct (c_data cf) as [|p D'] eqn:ED; [discriminate|]. intros E'. assert (B = p :: D' /\ used = zs (seq 0 (length (p :: D')))) as [-> ->] by (split; congruence).
        split; [discriminate|]. split; [apply names_range|right; auto].
      + destruct l as [|i l]; [discriminate|]. destruct (pygets (c_data cf) (i :: l)) as [B'|] eqn:Ep; [|discriminate]. intros E'. assert (B = B' /\ used = i :: l) as [-> ->] by (split; congruence). apply pygets_names in Ep. split; [|split; [exact Ep|now left]].
        intros ->. apply names_length in Ep. discriminate.
  Qed.
  Lemma list_total : forall l (t : tc S), l <> [] -> indexable n l -> exists r, handle_list cf l t = TOk r.
  Proof.
    intros l t Hl Hx. destruct (list_cases l t) as [(C & _ & _ & E)|E]; [eauto|]. rewrite E. unfold uncached_list. destruct ((length l =? n_samples cf)%nat && c_load cf) eqn:Ef.
    - apply andb_true_iff in Ef as [F1 _]. apply Nat.eqb_eq in F1. unfold n_samples in F1. destruct (c_data cf); [destruct l; [congruence|discriminate]|eauto].
    - destruct l as [|i l]; [congruence|]. destruct (names_total D (i :: l) Hx) as [B HB]. apply pygets_names in HB. rewrite HB. eauto.
  Qed.

  Lemma inv_remaining : forall t r d, inv t -> NoDup r -> (forall i, In i r -> (i < n)%nat) -> inv (with_remaining r d t).
  Proof. intros t r d (I1 & _ & _ & I4) N H. split; [exact I1|]. split; [exact N|]. split; [exact H|exact I4]. Qed.
  Lemma inv_iter : forall t bs d, inv t -> (forall b, In b bs -> good_batch b) -> inv (with_iter bs d t).
  Proof. intros t bs d (I1 & I2 & I3 & I4) H. split; [exact I1|]. split; [exact I2|]. split; [exact I3|]. intros bs' b [= <-]. apply H. Qed.
  Lemma dataloader_ok : forall t, inv t -> exists B b t', handle_dataloader cf order t = (Some (B, zs b), t') /\ names D (zs b) B /\ good_batch b /\ inv t' /\ same_model t t'.
  Proof using Hb Ho.
    intros t I. unfold handle_dataloader.
    set (t1 := match t_iter t with None => with_iter (loader_batches cf order (t_draws t)) (Datatypes.S (t_draws t)) t | Some _ => t end).
    assert (I1 : inv t1 /\ same_model t t1 /\ exists bs, t_iter t1 = Some bs).
    { unfold t1. destruct (t_iter t) eqn:Ei; [split; [exact I|]; split; [split; reflexivity|eauto]|]. split; [apply inv_iter; [exact I|apply loader_batches_ok]|]. split; [split; reflexivity|eexists; reflexivity]. }
    clearbody t1. destruct I1 as (I1 & M1 & bs & Eb). rewrite Eb.
    assert (T : forall bs d, bs <> [] -> (forall b, In b bs -> good_batch b) -> exists B b t',
      match bs with b :: bs => (match pygets (c_data cf) (zs b) with Some B => Some (B, zs b) | None => None end, with_iter bs d t1) | [] => (None, t1) end = (Some (B, zs b), t') /\ names D (zs b) B /\ good_batch b /\ inv t' /\ same_model t t').
    { intros [|b bs0] d N H; [congruence|]. pose proof (H b (or_introl eq_refl)) as G. destruct (zs_names D b) as (B & E & NB); [apply G|]. exists B, b, (with_iter bs0 d t1). rewrite E. split; [reflexivity|].
      split; [exact NB|]. split; [exact G|]. split; [apply inv_iter; [exact I1|intros; apply H; now right]|]. destruct M1 as [M1 M2]. split; cbn; assumption. }
    destruct bs as [|b bs].
    - apply T; apply loader_batches_ok.
    - apply (T (b :: bs)); [discriminate|]. intros b' J. destruct I1 as (_ & _ & _ & I4). eapply I4; eauto.
  Qed.
  Lemma perm_ok : forall d, NoDup (randperm d) /\ (forall i, In i (randperm d) -> (i < n)%nat) /\ length (randperm d) = n.
  Proof using Hr.
    clear Hb. intros d. split; [eapply Permutation_NoDup; [symmetry; apply Hr|apply seq_NoDup]|]. split; [intros i I; apply (Permutation_in i (Hr d)) in I; apply in_seq in I; lia|]. rewrite (Permutation_length (Hr d)). apply seq_length.
  Qed.
  Lemma handle_ok : forall ix t, inv t -> let '(r, t') := handle_indices cf randperm order ix t in inv t' /\ same_model t t' /\
    match r with TOk (B, used) => B <> [] /\ names D used B /\ sel ix used | TErr _ => ~ valid n ix end.
  Proof using Hb Hr Ho.
    intros ix t I. unfold handle_indices.
    assert (G : forall l ix' t', inv t' -> l <> [] -> indexable n l -> (forall used, selects_list n (c_load cf) l used -> sel ix' used) ->
      match handle_list cf l t' with TOk (B, used) => B <> [] /\ names D used B /\ sel ix' used | TErr _ => ~ valid n ix' end).
    { intros l ix' t' I' Hl Hx Hs. destruct (list_total l t' Hl Hx) as [[B used] E]. rewrite E. destruct (list_ok l t' I' B used E) as (N & NB & Hu). auto. }
    assert (SM : same_model t t) by (split; reflexivity).
    destruct ix as [i|l| | |].
    - split; [exact I|]. split; [exact SM|]. destruct (handle_list cf [i] t) as [[B used]|e] eqn:E.
      + exact (list_ok [i] t I B used E).
      + intros V. destruct (list_total [i] t ltac:(discriminate) V) as [r' E']. congruence.
    - split; [exact I|]. split; [exact SM|]. destruct (handle_list cf l t) as [[B used]|e] eqn:E.
      + exact (list_ok l t I B used E).
      + intros [V1 V2]. destruct (list_total l t V1 V2) as [r' E']. congruence.
    - split; [exact I|]. split; [exact SM|]. apply G; [exact I|apply range_nonempty; lia|apply indexable_range|]. intros used [->|(_ & _ & ->)]; reflexivity.
    - destruct (Nat.ltb_spec (c_batch cf) n) as [Hlt|Hge].
      + destruct (c_loader cf) eqn:El.
        * destruct (dataloader_ok t I) as (B & b & t' & E & NB & (Gb1 & Gb2 & Gb3 & Gb4) & I' & M'). rewrite E. split; [exact I'|]. split; [exact M'|]. split; [|split; [exact NB|]].
          -- intros ->. apply names_length in NB. unfold zs in NB. rewrite map_length in NB. destruct b; [congruence|discriminate].
          -- right. split; [exact Hlt|]. exists (length b). split; [apply zs_samples; assumption|]. split; [|congruence]. split; [destruct b; [congruence|cbn; lia]|assumption].
        * destruct I as (I1 & I2 & I3 & I4).
          assert (Rm : exists rem d, (if (length (t_remaining t) <? c_batch cf)%nat then (randperm (t_draws t), Datatypes.S (t_draws t)) else (t_remaining t, t_draws t)) = (rem, d) /\ NoDup rem /\ (forall i, In i rem -> (i < n)%nat) /\ (c_batch cf <= length rem)%nat).
          { destruct (Nat.ltb_spec (length (t_remaining t)) (c_batch cf)).
            - destruct (perm_ok (t_draws t)) as (P1 & P2 & P3). do 2 eexists. split; [reflexivity|]. split; [exact P1|]. split; [exact P2|]. lia.
            - do 2 eexists. split; [reflexivity|]. auto. }
          destruct Rm as (rem & d & E & N1 & N2 & N3). rewrite E. rewrite <- (firstn_skipn (c_batch cf) rem) in N1, N2.
          assert (N4 : NoDup (firstn (c_batch cf) rem) /\ NoDup (skipn (c_batch cf) rem)).
          { split; [apply (NoDup_concat_in [firstn (c_batch cf) rem; skipn (c_batch cf) rem])|apply (NoDup_concat_in [firstn (c_batch cf) rem; skipn (c_batch cf) rem])]; cbn [concat]; rewrite ?app_nil_r; auto; cbn; auto. }
          destruct N4 as [N4 N5].
          assert (I' : inv (with_remaining (skipn (c_batch cf) rem) d t)) by (apply inv_remaining; [split; auto|exact N5|intros i Ii; apply N2, in_or_app; now right]).
          assert (Lf : length (firstn (c_batch cf) rem) = c_batch cf) by (rewrite firstn_length; lia).
          assert (Hz : samples_of_size n (c_batch cf) (zs (firstn (c_batch cf) rem))) by (rewrite <- Lf at 1; apply zs_samples; [exact N4|intros i Ii; apply N2, in_or_app; now left]).
          split; [exact I'|]. split; [split; reflexivity|]. apply G; [exact I'| | |].
          -- destruct Hz as (_ & Hz & _). intros E0. rewrite E0 in Hz. cbn in Hz. lia.
          -- intros i Ii. destruct Hz as (_ & _ & Hz). specialize (Hz i Ii). lia.
          -- intros used [->|(Hl & _)]; [|destruct Hz as (_ & Hz & _); lia]. right. split; [exact Hlt|]. exists (c_batch cf). split; [exact Hz|]. split; [lia|reflexivity].
      + split; [exact I|]. split; [exact SM|]. apply G; [exact I|apply range_nonempty; lia|apply indexable_range|]. intros used [->|(_ & _ & ->)]; (left; split; [lia|reflexivity]).
    - split; [exact I|]. split; [exact SM|]. exact (fun V => V).
  Qed.

  Lemma inv_with_params : forall ps t, inv t -> inv (with_params ps t).
  Proof. intros ps t I. exact I. Qed.
  Lemma inv_with_training : forall m t, inv t -> inv (with_training m t).
  Proof. intros m t I. exact I. Qed.
  Lemma inv_with_batch : forall used B t, inv t -> B <> [] -> names D used B -> inv (with_batch used B t).
  Proof. intros used B t (_ & I2 & I3 & I4) H1 H2. split; [intros B' [= <-]; auto|]. auto. Qed.
  Lemma inv_pickled : forall t, inv t -> inv (pickled cf order t).
  Proof using Hb Ho.
    intros t (_ & I2 & I3 & I4). split; [cbn; discriminate|]. split; [exact I2|]. split; [exact I3|]. intros bs b. cbn. destruct (t_iter t); [|discriminate]. intros [= <-]. apply loader_batches_ok.
  Qed.

  (** getting a batch *)
  Lemma batch_ok : forall ix t, inv t -> exists r t', get_batch_data cf randperm order ix t = (r, t') /\ inv t' /\ same_model t t' /\
    match r with
    | TOk cs => exists B, chunks (c_max cf) B = Some cs /\ B <> [] /\ names D (t_used t') B /\ sel ix (t_used t')
    | TErr _ => ~ valid n ix \/ c_max cf = 0%Z
    end.
  Proof using Hb Hr Ho.
    intros ix t I. unfold get_batch_data. pose proof (handle_ok ix t I) as H. destruct (handle_indices cf randperm order ix t) as [[[B used]|e] t'].
    - destruct H as (I' & M' & H1 & H2 & H3). destruct (chunks (c_max cf) B) as [cs|] eqn:Ec.
      + do 2 eexists. split; [reflexivity|]. split; [now apply inv_with_batch|]. split; [exact M'|]. exists B. cbn. auto.
      + do 2 eexists. split; [reflexivity|]. split; [now apply inv_with_batch|]. split; [exact M'|]. right. unfold chunks in Ec. destruct (Z.eqb_spec (c_max cf) 0); [assumption|]. destruct (c_max cf <? 0)%Z; discriminate.
    - destruct H as (I' & M' & H). do 2 eexists. split; [reflexivity|]. auto.
  Qed.
  Lemma set_ok : forall x (t : tc S), inv t ->
    (right_size (c_sizes cf) x /\ exists t', set_model_parameters cf x t = (TOk tt, t') /\ inv t' /\ unflattened (c_sizes cf) x (t_params t')) \/
    (~ right_size (c_sizes cf) x /\ set_model_parameters cf x t = (TErr TValueError, t)).
  Proof.
    intros x t I. unfold set_model_parameters, total_params, right_size. destruct (Nat.eqb_spec (length x) (fold_right Nat.add 0%nat (c_sizes cf))) as [E|E]; [left|right; auto].
    split; [exact E|]. eexists. split; [reflexivity|]. split; [now apply inv_with_params|]. cbn. apply split_sizes_ok. exact E.
  Qed.
End Inv.
