(** The order in which a [PyTorchCost] hands out its batches. *)
From Coq Require Import Reals List Bool Arith ZArith Permutation Lia Lra.
From Verif.Model Require Import Batch Vec TorchCost.
From Verif.Spec Require Import EmpiricalSpec TorchSpec.
From Verif.Proofs Require Import EmpiricalProofs TorchProofs TorchInv TorchCalls.
Import ListNotations.
Open Scope nat_scope.

Lemma pos_lt : forall e j q, j < q -> (e * q + j) / q = e /\ (e * q + j) mod q = j.
Proof. intros e j q H. split; [symmetry; apply (Nat.div_unique _ _ e j); lia|symmetry; apply (Nat.mod_unique _ _ e j); lia]. Qed.
Lemma pos_eq : forall e q, 0 < q -> (e * q + q) / q = e + 1 /\ (e * q + q) mod q = 0.
Proof. intros e q H. replace (e * q + q) with ((e + 1) * q + 0) by lia. apply pos_lt. exact H. Qed.

Section BatchOrder.
  Context {S In' Out : Type}.
  Variables (cf : config S) (loss : bool -> list (list R) -> list S -> R) (grads : bool -> list (list R) -> list S -> list (list R)) (out : bool -> list (list R) -> In' -> Out).
  Variables (randperm order : nat -> list nat).
  Hypothesis Hb : (0 < c_batch cf <= n_samples cf).
  Hypothesis Hm : (0 < c_max cf)%Z.
  Hypothesis (Hr : forall d, Permutation (randperm d) (seq 0 (n_samples cf))) (Ho : forall d, Permutation (order d) (seq 0 (n_samples cf))).
  Local Notation n := (n_samples cf).
  Local Notation b := (c_batch cf).
  Local Notation step := (tstep cf loss grads out randperm order).
  Local Notation steps := (tsteps cf loss grads out randperm order).
  Local Notation handle := (handle_indices cf randperm order).

  Definition stream (t : tc S) := (t_remaining t, t_iter t, t_draws t).
  Lemma data_stream : forall ix t, inv cf t -> exists q t', get_batch_data cf randperm order ix t = (q, t') /\ stream t' = stream (snd (handle ix t)) /\
    match fst (handle ix t) with TOk (_, used) => (exists cs, q = TOk cs) /\ t_used t' = used | TErr e => q = TErr e end.
  Proof using Hm.
    clear Hb Hr Ho. intros ix t I. unfold get_batch_data. destruct (handle ix t) as [[[B used]|e] t']; cbn [fst snd].
    - destruct (chunks_ok (c_max cf) B Hm) as (cs & E & _). rewrite E. do 2 eexists. split; [reflexivity|]. split; [reflexivity|]. split; [eauto|reflexivity].
    - do 2 eexists. split; [reflexivity|]. split; reflexivity.
  Qed.
  Lemma op_stream : forall op t o t', inv cf t -> step op t = (o, t') -> inv cf t' /\
    ((batch_of op o = [] /\ stream t' = stream t) \/ (op = PPickle /\ t' = pickled cf order t /\ batch_of op o = []) \/
     (exists t2 B used, inv cf t2 /\ stream t2 = stream t /\ fst (handle IxBatch t2) = TOk (B, used) /\ stream t' = stream (snd (handle IxBatch t2)) /\ batch_of op o = [used])).
  Proof using Hb Hm Hr Ho.
    intros op t o t' I E.
    assert (Key : forall mode x ix, let '(q, t1) := set_model_parameters cf x t in
      match q with
      | TErr _ => t1 = t
      | TOk _ => exists r t'', get_batch_data cf randperm order ix (with_training mode t1) = (r, t'') /\ inv cf t'' /\
          ((ix <> IxBatch /\ stream t'' = stream t) \/
           (ix = IxBatch /\ exists t2 B used cs, inv cf t2 /\ stream t2 = stream t /\ fst (handle IxBatch t2) = TOk (B, used) /\ stream t'' = stream (snd (handle IxBatch t2)) /\ r = TOk cs /\ t_used t'' = used))
      end).
    { intros mode x ix. destruct (set_ok cf x t I) as [(Hx & t1 & Es & I1 & _)|(_ & Es)]; rewrite Es; [|reflexivity].
      assert (St : stream (with_training mode t1) = stream t) by (unfold set_model_parameters in Es; destruct (length x =? total_params cf); [injection Es as <-; reflexivity|discriminate]).
      pose proof (inv_with_training cf mode t1 I1) as I2. destruct (data_stream ix _ I2) as (q & t'' & Eq & St' & H). destruct (batch_ok cf randperm order Hb Hr Ho ix _ I2) as (q0 & t0 & Eq0 & I0 & _ & Hq).
      rewrite Eq in Eq0. injection Eq0 as <- <-. exists q, t''. split; [exact Eq|]. split; [exact I0|]. destruct ix as [i|l| | |]; try (left; split; [discriminate|]; rewrite St', <- St; reflexivity).
      right. split; [reflexivity|]. destruct (fst (handle IxBatch (with_training mode t1))) as [[B used]|e] eqn:Ef.
      - destruct H as [[cs ->] Hu]. exists (with_training mode t1), B, used, cs. split; [exact I2|]. auto 6.
      - subst q. cbn in Hq. destruct Hq as [Hq|Hq]; [tauto|lia]. }
    destruct op as [x ix|x ix|x ix|x data|]; cbn [tstep] in E.
    - specialize (Key false x ix). unfold function in E. destruct (set_model_parameters cf x t) as [[u|e] t1].
      + destruct Key as (r & t'' & Eg & I'' & K). rewrite Eg in E. injection E as <- <-. split; [exact I''|]. destruct K as [[K1 K2]|(-> & t2 & B & used & cs & K1 & K2 & K3 & K4 & -> & K6)].
        * left. split; [|exact K2]. destruct ix; try reflexivity; congruence.
        * right. right. exists t2, B, used. rewrite <- K6. rewrite K6. auto 6.
      + injection E as <- <-. subst t1. split; [exact I|]. left. split; [destruct ix; reflexivity|reflexivity].
    - specialize (Key true x ix). unfold gradient in E. destruct (set_model_parameters cf x t) as [[u|e] t1].
      + destruct Key as (r & t'' & Eg & I'' & K). rewrite Eg in E. injection E as <- <-. split; [exact I''|]. destruct K as [[K1 K2]|(-> & t2 & B & used & cs & K1 & K2 & K3 & K4 & -> & K6)].
        * left. split; [|exact K2]. destruct ix; try reflexivity; congruence.
        * right. right. exists t2, B, used. rewrite K6. split; [exact K1|]. split; [exact K2|]. split; [exact K3|]. split; [exact K4|]. destruct cs as [|c [|c2 cs]]; reflexivity.
      + injection E as <- <-. subst t1. split; [exact I|]. left. split; [destruct ix; reflexivity|reflexivity].
    - specialize (Key true x ix). unfold per_sample_gradients in E. destruct (set_model_parameters cf x t) as [[u|e] t1].
      + destruct Key as (r & t'' & Eg & I'' & K). rewrite Eg in E. injection E as <- <-. split; [exact I''|]. destruct K as [[K1 K2]|(-> & t2 & B & used & cs & K1 & K2 & K3 & K4 & -> & K6)].
        * left. split; [|exact K2]. destruct ix; try reflexivity; congruence.
        * right. right. exists t2, B, used. rewrite K6. auto 6.
      + injection E as <- <-. subst t1. split; [exact I|]. left. split; [destruct ix; reflexivity|reflexivity].
    - destruct (predict_ok cf out Hm x data t I) as (r & t0 & E0 & I0 & _ & _ & P1 & P2 & P3 & P4). rewrite E0 in E. injection E as <- <-. split; [exact I0|]. left. split; [reflexivity|]. unfold stream. congruence.
    - injection E as <- <-. split; [now apply inv_pickled|]. right. left. auto.
  Qed.

  (** generic: a history numbers its batches *)
  Section Numbered.
    Variables (J : nat -> tc S -> Prop) (exp : nat -> list Z) (ok : top (In := In') -> Prop).
    Hypothesis HJ : forall k t t', J k t -> stream t' = stream t -> J k t'.
    Hypothesis Hp : forall k t, J k t -> ok PPickle -> J k (pickled cf order t).
    Hypothesis Hh : forall k t B used, J k t -> inv cf t -> fst (handle IxBatch t) = TOk (B, used) -> used = exp k /\ J (k + 1) (snd (handle IxBatch t)).
    Lemma numbered : forall ops k t, J k t -> inv cf t -> (forall op, In op ops -> ok op) -> forall os t', steps ops t = (os, t') ->
      forall i used, nth_error (batches ops os) i = Some used -> used = exp (k + i).
    Proof using Hb Hm Hr Ho HJ Hp Hh.
      induction ops as [|op ops IH]; intros k t Jk I Hok os t' E i used Hn; cbn [tsteps] in E.
      - injection E as <- <-. destruct i; discriminate.
      - destruct (step op t) as [o t1] eqn:Es. destruct (steps ops t1) as [os1 t2] eqn:Er. injection E as <- <-. unfold batches in Hn. cbn [combine map concat fst snd] in Hn. fold (batches ops os1) in Hn.
        destruct (op_stream op t o t1 I Es) as [I1 [[H1 H2]|[(-> & -> & H3)|(t0 & B & u & H0 & H1 & H2 & H3 & H4)]]].
        + rewrite H1 in Hn. cbn in Hn. apply (IH k t1 (HJ k t t1 Jk H2) I1 (fun op' Iop => Hok op' (or_intror Iop)) os1 t2 Er i used Hn).
        + cbn in Hn. assert (J1 : J k (pickled cf order t)) by (apply Hp; [exact Jk|apply Hok; now left]). apply (IH k _ J1 I1 (fun op' Iop => Hok op' (or_intror Iop)) os1 t2 Er i used Hn).
        + rewrite H4 in Hn. cbn in Hn. assert (J0 : J k t0) by (eapply HJ; eauto). destruct (Hh k t0 B u J0 H0 H2) as [-> J1]. destruct i as [|i]; cbn in Hn.
          * injection Hn as <-. now rewrite Nat.add_0_r.
          * replace (k + Datatypes.S i) with (k + 1 + i) by lia. apply (IH (k + 1) t1 (HJ _ _ t1 J1 H3) I1 (fun op' Iop => Hok op' (or_intror Iop)) os1 t2 Er i used Hn).
    Qed.
  End Numbered.

  (** *** Batches from the index list *)
  Local Notation q := (n / b).
  Definition Jplain (k : nat) (t : tc S) : Prop := t_iter t = None /\
    ((k = 0 /\ t_remaining t = [] /\ t_draws t = 0) \/ exists e j, k = e * q + j /\ 1 <= j <= q /\ t_draws t = e + 1 /\ t_remaining t = skipn (j * b) (randperm e)).
  Definition plain_batch (k : nat) : list Z := zs (firstn b (skipn ((k mod q) * b) (randperm (k / q)))).
  Lemma q_bounds : 0 < q /\ q * b <= n /\ forall j, j < q <-> (j + 1) * b <= n.
  Proof using Hb.
    clear - Hb. pose proof (Nat.div_mod n b ltac:(lia)) as E. pose proof (Nat.mod_upper_bound n b ltac:(lia)) as B.
    assert (1 <= q) by (apply Nat.div_le_lower_bound; lia). split; [lia|]. split; [lia|]. intros j. split; intros H0.
    - assert ((j + 1) * b <= q * b) by (apply Nat.mul_le_mono_r; lia). lia.
    - assert (j + 1 <= q); [|lia]. apply Nat.div_le_lower_bound; lia.
  Qed.
  Lemma handle_plain : c_loader cf = false -> b < n -> forall k t B used, Jplain k t -> inv cf t -> fst (handle IxBatch t) = TOk (B, used) -> used = plain_batch k /\ Jplain (k + 1) (snd (handle IxBatch t)).
  Proof using Hb Hr.
    intros Hl Hn k t B used [Ji J] I E. destruct q_bounds as (Q1 & Q2 & Q3).
    assert (L : forall e, length (randperm e) = n) by (intros e; apply (perm_ok cf randperm Hr e)).
    unfold handle_indices in *. replace (b <? n) with true in * by (symmetry; now apply Nat.ltb_lt). rewrite Hl in *.
    assert (Used : forall (l : list Z) (t0 t1 : tc S), length l <> n -> fst (handle_list cf l t0, t1) = TOk (B, used) -> inv cf t0 -> used = l).
    { intros l t0 t1 Hne E0 I0. cbn [fst] in E0. destruct (list_ok cf l t0 I0 B used E0) as (_ & _ & [->|(H & _)]); [reflexivity|congruence]. }
    assert (Inv' : forall r d, NoDup r -> (forall i, In i r -> i < n) -> inv cf (with_remaining r d t)) by (intros; now apply inv_remaining).
    assert (Fin : forall rem d e j, j < q -> rem = skipn (j * b) (randperm e) -> d = e + 1 -> k = e * q + j ->
       fst (handle_list cf (zs (firstn b rem)) (with_remaining (skipn b rem) d t), with_remaining (skipn b rem) d t) = TOk (B, used) ->
       used = plain_batch k /\ Jplain (k + 1) (with_remaining (skipn b rem) d t)).
    { intros rem d e j Hj -> -> -> E0. destruct (pos_lt e j q Hj) as [P1 P2]. destruct (perm_ok cf randperm Hr e) as (N1 & N2 & N3). apply Q3 in Hj as Hj'.
      assert (Lr : length (skipn (j * b) (randperm e)) = n - j * b) by (rewrite skipn_length; lia).
      assert (Es : skipn b (skipn (j * b) (randperm e)) = skipn ((j + 1) * b) (randperm e)) by (replace ((j + 1) * b) with (b + j * b) by lia; symmetry; apply skip_add).
      split.
      - unfold plain_batch. rewrite P1, P2. eapply (Used _ (with_remaining (skipn b (skipn (j * b) (randperm e))) (e + 1) t)).
        + unfold zs. rewrite map_length, firstn_length. lia.
        + exact E0.
        + apply Inv'; rewrite Es.
          * rewrite <- (firstn_skipn ((j + 1) * b) (randperm e)) in N1. eapply (NoDup_concat_in [_; _]); [cbn [concat]; rewrite app_nil_r; exact N1|cbn; auto].
          * intros i Ii. apply N2. rewrite <- (firstn_skipn ((j + 1) * b) (randperm e)). apply in_or_app. now right.
      - split; [exact Ji|]. right. exists e, (j + 1). split; [lia|]. split; [lia|]. split; [reflexivity|]. cbn. exact Es. }
    destruct J as [(-> & R0 & D0)|(e & j & -> & Hj & D0 & R0)].
    - rewrite R0, D0 in *. cbn [length] in *. replace (0 <? b) with true in * by (symmetry; apply Nat.ltb_lt; lia). apply (Fin (randperm 0) 1 0 0); auto.
    - rewrite R0, D0 in *. rewrite skipn_length, L in *. destruct (Nat.ltb_spec (n - j * b) b) as [Hs|Hs].
      + assert (j = q). { destruct (Nat.eq_dec j q) as [|Hd]; [assumption|]. exfalso. assert (j < q) as Hj' by lia. apply Q3 in Hj'. nia. } subst j.
        apply (Fin (randperm (e + 1)) (Datatypes.S (e + 1)) (e + 1) 0); auto; lia.
      + assert (j < q) by (apply Q3; lia). apply (Fin (skipn (j * b) (randperm e)) (e + 1) e j); auto.
  Qed.
  Lemma plain_order : c_loader cf = false -> b < n -> forall ps ops os t', steps ops (new_tc ps) = (os, t') -> forall k used, nth_error (batches ops os) k = Some used -> used = plain_batch k.
  Proof using Hb Hm Hr Ho.
    intros Hl Hn ps ops os t' E k used H. apply (numbered Jplain plain_batch (fun _ => True)) with (ops := ops) (os := os) (t := new_tc ps) (t' := t') (k := 0) in H; auto.
    - intros k0 t t1 [J1 J2] Es. unfold stream in Es. injection Es as E1 E2 E3. split; [congruence|]. rewrite E1, E3. exact J2.
    - intros k0 t [J1 J2] _. unfold Jplain, pickled. rewrite J1. cbn. split; [reflexivity|exact J2].
    - now apply handle_plain.
    - split; [reflexivity|]. left. auto.
    - apply inv_new.
  Qed.

  (** *** Batches from a data loader *)
  Local Notation m := ((n + b - 1) / b).
  Definition Jload (k : nat) (t : tc S) : Prop :=
    (k = 0 /\ t_iter t = None /\ t_draws t = 0) \/ exists e j, k = e * m + j /\ 1 <= j <= m /\ t_draws t = e + 1 /\ t_iter t = Some (skipn j (loader_batches cf order e)).
  Definition load_batch (k : nat) : list Z := zs (firstn b (skipn ((k mod m) * b) (order (k / m)))).
  Lemma loader_shape : forall e, length (loader_batches cf order e) = m /\ forall i c, nth_error (loader_batches cf order e) i = Some c -> c = firstn b (skipn (i * b) (order e)).
  Proof using Hb Ho.
    intros e. unfold loader_batches. destruct (chunks_ok (Z.of_nat b) (order e) ltac:(lia)) as (cs & E & _ & _ & C & L). rewrite E. rewrite Nat2Z.id in *. rewrite (Permutation_length (Ho e)), seq_length in L. auto.
  Qed.
  Lemma handle_load : c_loader cf = true -> b < n -> forall k t B used, Jload k t -> inv cf t -> fst (handle IxBatch t) = TOk (B, used) -> used = load_batch k /\ Jload (k + 1) (snd (handle IxBatch t)).
  Proof using Hb Ho.
    intros Hl Hn k t B used J I E. unfold handle_indices in *. replace (b <? n) with true in * by (symmetry; now apply Nat.ltb_lt). rewrite Hl in *.
    assert (Fin : forall t0 bs d e j, j < m -> bs = skipn j (loader_batches cf order e) -> d = e + 1 -> k = e * m + j ->
       let r := match bs with b :: bs => (match pygets (c_data cf) (zs b) with Some B => Some (B, zs b) | None => None end, with_iter bs d t0) | [] => (None, t0) end in
       (let '(r, t) := r in (match r with Some b => TOk b | None => TErr TRuntimeError end, t)) = (fst (let '(r, t) := handle_dataloader cf order t in (match r with Some b => TOk b | None => TErr TRuntimeError end, t)), snd (let '(r, t) := handle_dataloader cf order t in (match r with Some b => TOk b | None => TErr TRuntimeError end, t))) ->
       used = load_batch k /\ Jload (k + 1) (snd (let '(r, t) := handle_dataloader cf order t in (match r with Some b => TOk b | None => TErr TRuntimeError end, t)))).
    { intros t0 bs d e j Hj -> -> -> r Er. destruct (loader_shape e) as [Ls Lc]. destruct (pos_lt e j m Hj) as [P1 P2].
      rewrite E in Er. unfold r in Er. destruct (skipn j (loader_batches cf order e)) as [|c bs] eqn:Esk; [apply (f_equal (@length _)) in Esk; rewrite skipn_length in Esk; cbn in Esk; lia|].
      assert (Hc : nth_error (loader_batches cf order e) j = Some c) by (rewrite <- (firstn_skipn j (loader_batches cf order e)), Esk, nth_error_app2; rewrite firstn_length, Nat.min_l by lia; [now rewrite Nat.sub_diag|lia]).
      apply Lc in Hc. destruct (pygets (c_data cf) (zs c)) as [B'|]; [|discriminate]. apply pair_equal_spec in Er as [Er1 Er2]. assert (used = zs c) as -> by congruence. rewrite <- Er2. split.
      - unfold load_batch. now rewrite P1, P2, Hc.
      - right. exists e, (j + 1). split; [lia|]. split; [lia|]. split; [reflexivity|]. cbn. f_equal. rewrite Nat.add_comm, skip_add, Esk. reflexivity. }
    assert (M : 0 < m). { apply Nat.div_str_pos. lia. }
    destruct J as [(-> & I0 & D0)|(e & j & -> & Hj & D0 & I0)].
    - apply (Fin (with_iter (loader_batches cf order 0) 1 t) (loader_batches cf order 0) 1 0 0); [exact M|reflexivity|reflexivity|reflexivity|].
      rewrite <- surjective_pairing. unfold handle_dataloader. rewrite I0, D0. cbn [t_iter with_iter t_draws]. destruct (loader_shape 0) as [Ls _]. destruct (loader_batches cf order 0); [cbn in Ls; lia|reflexivity].
    - destruct (Nat.eq_dec j m) as [->|Hne].
      + destruct (loader_shape e) as [Ls _]. rewrite skipn_all2 in I0 by lia. apply (Fin t (loader_batches cf order (e + 1)) (e + 1 + 1) (e + 1) 0); [exact M|reflexivity|reflexivity|lia|].
        rewrite <- surjective_pairing. unfold handle_dataloader. rewrite I0. rewrite I0. rewrite D0. replace (Datatypes.S (e + 1)) with (e + 1 + 1) by lia. reflexivity.
      + destruct (loader_shape e) as [Ls _]. apply (Fin t (skipn j (loader_batches cf order e)) (e + 1) e j); [lia|reflexivity|reflexivity|reflexivity|].
        rewrite <- surjective_pairing. unfold handle_dataloader. rewrite I0. rewrite I0. rewrite D0. destruct (skipn j (loader_batches cf order e)) eqn:Esk; [apply (f_equal (@length _)) in Esk; rewrite skipn_length in Esk; cbn in Esk; lia|reflexivity].
  Qed.
  Lemma load_order : c_loader cf = true -> b < n -> forall ps ops os t', ~ In PPickle ops -> steps ops (new_tc ps) = (os, t') -> forall k used, nth_error (batches ops os) k = Some used -> used = load_batch k.
  Proof using Hb Hm Hr Ho.
    intros Hl Hn ps ops os t' Np E k used H. apply (numbered Jload load_batch (fun op => op <> PPickle)) with (ops := ops) (os := os) (t := new_tc ps) (t' := t') (k := 0) in H; auto.
    - intros k0 t t1 J Es. unfold stream in Es. injection Es as E1 E2 E3. unfold Jload. rewrite E2, E3. exact J.
    - intros k0 t _ Hx. congruence.
    - now apply handle_load.
    - left. auto.
    - apply inv_new.
    - intros op Hop ->. contradiction.
  Qed.
End BatchOrder.
