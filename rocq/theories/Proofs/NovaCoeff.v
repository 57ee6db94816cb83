(** FedNova's normalisation coefficients. *)
From Coq Require Import Reals List Arith Lia Lra FunctionalExtensionality.
From Verif.Model Require Import PyDict History Messages Network Runner Vec P2P Fed.
From Verif.Spec Require Import NetworkSpec P2PSpec FedSpec.
From Verif.Proofs Require Import FedSteps.
Import ListNotations.
Open Scope R_scope.

Lemma coeff_S a beta mu n : nova_coeff a beta mu (S n) =
  (let s' := match beta with Some be => be * snd (nova_coeff a beta mu n) + 1 | None => 1 end in
   (match mu with Some mu0 => (1 - a * mu0) * fst (nova_coeff a beta mu n) + s' | None => fst (nova_coeff a beta mu n) + s' end, s')).
Proof. cbn [nova_coeff]. destruct (nova_coeff a beta mu n). reflexivity. Qed.

(** the momentum scalars grow, from 1 *)
Lemma scal_mono a beta mu n : match beta with Some be => 0 <= be | None => True end ->
  snd (nova_coeff a beta mu n) <= snd (nova_coeff a beta mu (S n)) /\ 1 <= snd (nova_coeff a beta mu (S n)).
Proof.
  intro B. induction n as [|n (IH1 & IH2)].
  - rewrite coeff_S. cbn. destruct beta; cbn; nra.
  - rewrite (coeff_S a beta mu (S n)). rewrite (coeff_S a beta mu n) in *. cbn [fst snd] in *. destruct beta as [be|]; cbn [fst snd]; [|lra].
    set (p := snd (nova_coeff a (Some be) mu n)) in *. split; nra.
Qed.
(** with a penalty the coefficient is at most the momentum scalar when
    [1 - a * m] is negative, and so stays positive *)
Lemma coeff_pos a beta mu n : match beta with Some be => 0 <= be | None => True end ->
  match mu with Some m => a * m < 2 | None => True end -> 0 < fst (nova_coeff a beta mu (S n)).
Proof.
  intros B M. destruct mu as [m|].
  - destruct (Rle_dec 0 (1 - a * m)) as [G|G].
    + induction n as [|n IH].
      * rewrite coeff_S. cbn. destruct beta; cbn; lra.
      * pose proof (scal_mono a beta (Some m) (S n) B) as (_ & Q). rewrite (coeff_S a beta (Some m) (S n)). rewrite (coeff_S a beta (Some m) (S n)) in Q. cbn [fst snd] in *.
        set (z := fst (nova_coeff a beta (Some m) (S n))) in *. set (w := match beta with Some be => _ | None => 1 end) in *. nra.
    + assert (H : forall n, 0 <= fst (nova_coeff a beta (Some m) n) <= snd (nova_coeff a beta (Some m) n) /\ (n <> O -> 0 < fst (nova_coeff a beta (Some m) n))).
      { clear n. induction n as [|n (IH1 & IH2)].
        - cbn. split; [lra|]. intro X. now contradiction X.
        - pose proof (scal_mono a beta (Some m) n B) as (Q1 & Q2). rewrite (coeff_S a beta (Some m) n) in *. cbn [fst snd] in *.
          set (z := fst (nova_coeff a beta (Some m) n)) in *. set (w := snd (nova_coeff a beta (Some m) n)) in *.
          set (w' := match beta with Some be => be * w + 1 | None => 1 end) in *. assert (0 < (1 - a * m) * z + w' <= w'); [|split; [lra|intros _; lra]]. split; nra. }
      apply H. discriminate.
  - induction n as [|n IH].
    + rewrite coeff_S. cbn. destruct beta; cbn; lra.
    + pose proof (scal_mono a beta None (S n) B) as (_ & Q). rewrite (coeff_S a beta None (S n)). rewrite (coeff_S a beta None (S n)) in Q. cbn [fst snd] in *.
      destruct beta; cbn in *; lra.
Qed.

(** closed forms *)
Lemma coeff_penalty a mu n : a * mu * fst (nova_coeff a None (Some mu) n) = 1 - (1 - a * mu) ^ n.
Proof. induction n as [|n IH]; [cbn; ring|]. rewrite coeff_S. cbn [fst snd]. rewrite Rmult_plus_distr_l, <- Rmult_assoc, (Rmult_comm (a * mu) (1 - a * mu)), Rmult_assoc, IH. cbn [pow]. ring. Qed.
Lemma scal_closed a be mu n : (1 - be) * snd (nova_coeff a (Some be) mu n) = 1 - be ^ n.
Proof. induction n as [|n IH]; [cbn; ring|]. rewrite coeff_S. cbn [fst snd]. replace ((1 - be) * (be * snd (nova_coeff a (Some be) mu n) + 1)) with (be * ((1 - be) * snd (nova_coeff a (Some be) mu n)) + (1 - be)) by ring. rewrite IH. cbn [pow]. ring. Qed.
Lemma coeff_momentum a be n : be <> 1 -> (1 - be) * fst (nova_coeff a (Some be) None n) = INR n - be * (1 - be ^ n) / (1 - be).
Proof.
  intro N. assert (N' : 1 - be <> 0) by lra. induction n as [|n IH]; [cbn; field; auto|]. rewrite coeff_S. cbn [fst snd].
  rewrite Rmult_plus_distr_l, IH. replace ((1 - be) * (be * snd (nova_coeff a (Some be) None n) + 1)) with (be * ((1 - be) * snd (nova_coeff a (Some be) None n)) + (1 - be)) by ring. rewrite scal_closed. rewrite S_INR. cbn [pow]. field. auto.
Qed.
Lemma coeff_plain a n : fst (nova_coeff a None None n) = INR n.
Proof. induction n as [|n IH]; [reflexivity|]. rewrite coeff_S, S_INR. cbn [fst snd]. now rewrite IH. Qed.

Lemma pow_big x n : 1 <= x -> 1 <= x ^ n.
Proof. intro H. induction n as [|n IH]; cbn [pow]; nra. Qed.
(** step size times penalty at least two: even numbers of steps are rejected *)
Lemma coeff_even a mu n : 2 <= a * mu -> fst (nova_coeff a None (Some mu) (2 * n)) <= 0.
Proof.
  intro H. pose proof (coeff_penalty a mu (2 * n)) as E. rewrite pow_mult in E.
  assert (1 <= ((1 - a * mu) ^ 2) ^ n) by (apply pow_big; cbn; nra). set (z := fst _) in *. nra.
Qed.

(** ** The upload *)
Section Upload.
  Variable grad : nat -> agent_id -> vec -> vec.
  Lemma client_upload steps a beta mu i b p d : exists y p' d' c,
    fednova_client grad steps a beta mu i b (p, d) = Some ([(cn, one_entry (fst (nova_coeff a beta mu (steps i)))); (cg, c)], (p', d')) /\
    v_x p' = Some y /\ nova_path grad i a beta mu b (steps i) b vzero y /\ c = vsub b y.
  Proof.
    destruct (nova_steps_ok grad i a beta mu b (steps i) p d (mkNova b vzero vzero 0 0)) as (s' & d' & E & X1 & X2 & X3).
    specialize (X3 0%nat eq_refl). rewrite Nat.add_0_r in X3.
    exists (nv_x s'). unfold fednova_client, lbind at 1. rewrite E. unfold setx, lbind, lret. do 3 eexists. split; [rewrite <- X3; cbn [fst]; reflexivity|split; [reflexivity|split; [exact X1|]]].
    apply functional_extensionality. intro c. rewrite X2. cbn. unfold vsub, vzero. ring.
  Qed.

  Lemma const_path i a beta mu ref g : (forall d x, grad d i x = g) -> beta = None \/ mu = None ->
    forall n x m z, nova_path grad i a beta mu ref n x m z -> forall j,
    (forall c, ref c - x c = a * fst (nova_coeff a beta mu j) * g c) -> (forall c, m c = snd (nova_coeff a beta mu j) * g c \/ beta = None) ->
    forall c, ref c - z c = a * fst (nova_coeff a beta mu (n + j)) * g c.
  Proof.
    intros C O n x m z P. induction P as [x m|n x m g' m' z G E P IH]; intros j HX HM c; [apply HX|].
    replace (S n + j)%nat with (n + S j)%nat by lia. apply IH; clear IH.
    - intro k. rewrite coeff_S. specialize (HX k). specialize (HM k). destruct G as (d & G). rewrite C in G. subst g' m'. cbn [fst snd].
      destruct O as [-> | ->].
      + destruct mu as [mu0|]; cbn [fst snd]; unfold vadd, vsub, vscal in *; set (w := fst (nova_coeff _ _ _ _)) in *.
        * replace (ref k - (x k - a * (g k + mu0 * (x k - ref k)))) with ((1 - a * mu0) * (ref k - x k) + a * g k) by ring. rewrite HX. ring.
        * replace (ref k - (x k - a * g k)) with ((ref k - x k) + a * g k) by ring. rewrite HX. ring.
      + destruct beta as [be|]; cbn [fst snd]; unfold vadd, vsub, vscal in *; set (w := fst (nova_coeff _ _ _ _)) in *.
        * destruct HM as [HM|HM]; [|discriminate]. rewrite HM. replace (ref k - (x k - a * (be * (snd (nova_coeff a (Some be) None j) * g k) + g k))) with ((ref k - x k) + a * (be * snd (nova_coeff a (Some be) None j) + 1) * g k) by ring. rewrite HX. ring.
        * replace (ref k - (x k - a * g k)) with ((ref k - x k) + a * g k) by ring. rewrite HX. ring.
    - intro k. rewrite coeff_S. specialize (HM k). destruct G as (d & G). rewrite C in G. subst g' m'. destruct O as [-> | ->]; [now right|].
      destruct beta as [be|]; [left|now right]. destruct HM as [HM|HM]; [|discriminate]. cbn [fst snd]. unfold vadd, vscal. rewrite HM. ring.
  Qed.
End Upload.
