(** Random number generators. *)
From Coq Require Import List Bool Arith ZArith Lia.
From Verif.Model Require Import PyDict Rng.
From Verif.Spec Require Import RngSpec.
Import ListNotations.

Section P.
  Context {G V : Type}.
  Variables (next : source -> nat -> G -> V * G) (seeded : source -> Z -> G) (ti : G -> Z) (td : nat -> G) (e : libs).
  Variables (bnp bt btf bjx : bool).
  Notation draw := (draw next seeded ti td e).
  Notation draws := (draws next seeded ti td e).
  Definition known (o : option Z) : bool := match o with Some _ => true | None => false end.
  Definition agree (s s' : rng G) : Prop :=
    g_py s = g_py s' /\ (bnp = true -> g_np s = g_np s' /\ g_leg s = g_leg s') /\
    (has_torch e = true -> bt = true -> g_torch s = g_torch s' /\ (has_cuda e = true -> g_cuda s = g_cuda s') /\ g_tgens s = g_tgens s' /\ known (g_seed s) = known (g_seed s')) /\
    (has_tf e = true -> btf = true -> g_tf s = g_tf s') /\ (has_jax e = true -> bjx = true -> g_jax s = g_jax s').
  Definition cov (src : source) : bool :=
    match src with SPython => true | SNumPy | SLegacy => bnp | STorch | SCuda | STorchGen _ => bt | STf => btf | SJax => bjx end.
  Lemma draw_agree src r s s' : agree s s' -> agree (snd (draw src r s)) (snd (draw src r s')) /\ (cov src = true -> fst (draw src r s) = fst (draw src r s')).
  Proof.
    intros (P & NP & T & TF & JX). unfold agree. destruct src; cbn [Rng.draw cov].
    - rewrite P. cbn. split; [split; [auto|]; split; [exact NP|]; split; [exact T|]; auto|auto].
    - destruct bnp.
      + destruct (NP eq_refl) as (E1 & E2). rewrite E1. cbn. split; [split; [auto|]; split; [auto|]; split; [exact T|]; auto|auto].
      + cbn. split; [split; [auto|]; split; [discriminate|]; split; [exact T|]; auto|discriminate].
    - destruct bnp.
      + destruct (NP eq_refl) as (E1 & E2). rewrite E2. cbn. split; [split; [auto|]; split; [auto|]; split; [exact T|]; auto|auto].
      + cbn. split; [split; [auto|]; split; [discriminate|]; split; [exact T|]; auto|discriminate].
    - destruct (has_torch e) eqn:HT; [|cbn; split; [split; [auto|]; split; [exact NP|]; split; [discriminate|]; auto|auto]]. destruct bt.
      + destruct (T eq_refl eq_refl) as (E1 & E2 & E3 & E4). rewrite E1. cbn. split; [split; [auto|]; split; [exact NP|]; split; [auto|]; auto|auto].
      + cbn. split; [split; [auto|]; split; [exact NP|]; split; [discriminate|]; auto|discriminate].
    - destruct (has_torch e) eqn:HT; [|cbn; split; [split; [auto|]; split; [exact NP|]; split; [discriminate|]; auto|auto]].
      destruct (has_cuda e) eqn:HC; cbn [andb]; [|cbn; split; [split; [auto|]; split; [exact NP|]; split; [exact T|]; auto|auto]]. destruct bt.
      + destruct (T eq_refl eq_refl) as (E1 & E2 & E3 & E4). rewrite E2 by auto. cbn. split; [split; [auto|]; split; [exact NP|]; split; [auto|]; auto|auto].
      + cbn. split; [split; [auto|]; split; [exact NP|]; split; [discriminate|]; auto|discriminate].
    - destruct (has_torch e) eqn:HT; [|cbn; split; [split; [auto|]; split; [exact NP|]; split; [discriminate|]; auto|auto]]. destruct bt.
      + destruct (T eq_refl eq_refl) as (E1 & E2 & E3 & E4). rewrite E1, E3.
        replace (match g_seed s with Some _ => seeded (STorchGen dev) (ti (g_torch s')) | None => td dev end) with (match g_seed s' with Some _ => seeded (STorchGen dev) (ti (g_torch s')) | None => td dev end)
          by (destruct (g_seed s), (g_seed s'); cbn in E4; congruence).
        cbn. split; [split; [auto|]; split; [exact NP|]; split; [auto|]; auto|auto].
      + cbn. split; [split; [auto|]; split; [exact NP|]; split; [discriminate|]; auto|discriminate].
    - destruct (has_tf e) eqn:HT; [|cbn; split; [split; [auto|]; split; [exact NP|]; split; [exact T|]; auto|auto]]. destruct btf.
      + rewrite (TF eq_refl eq_refl). destruct (g_tf s') eqn:E; cbn; rewrite ?(TF eq_refl eq_refl), ?E; (split; [split; [auto|]; split; [exact NP|]; split; [exact T|]; auto|auto]).
      + split; [|discriminate]. destruct (g_tf s), (g_tf s'); cbn; (split; [auto|]; split; [exact NP|]; split; [exact T|]; split; [discriminate|auto]).
    - destruct (has_jax e) eqn:HT; [|cbn; split; [split; [auto|]; split; [exact NP|]; split; [exact T|]; auto|auto]]. destruct bjx.
      + rewrite (JX eq_refl eq_refl). destruct (g_jax s') eqn:E; cbn; rewrite ?(JX eq_refl eq_refl), ?E; (split; [split; [auto|]; split; [exact NP|]; split; [exact T|]; auto|auto]).
      + split; [|discriminate]. destruct (g_jax s), (g_jax s'); cbn; (split; [auto|]; split; [exact NP|]; split; [exact T|]; split; [auto|discriminate]).
  Qed.
  Lemma draws_agree l : forall s s', agree s s' -> agree (snd (draws l s)) (snd (draws l s')) /\
    forall i src r, nth_error l i = Some (src, r) -> cov src = true -> nth_error (fst (draws l s)) i = nth_error (fst (draws l s')) i.
  Proof.
    induction l as [|(src, r) l IH]; intros s s' A; cbn [Rng.draws]; [split; [exact A|intros [|i]; discriminate]|].
    destruct (draw_agree src r s s' A) as (A1 & O). destruct (draw src r s) as (v, s1), (draw src r s') as (v', s1'). cbn [fst snd] in *.
    destruct (IH s1 s1' A1) as (A2 & H). destruct (draws l s1) as (vs, s2), (draws l s1') as (vs', s2'). cbn [fst snd] in *. split; [exact A2|].
    intros [|i] src' r' E C; cbn in *; [injection E as <- <-; f_equal; auto|eauto].
  Qed.
End P.
Lemma selected_In fw f : selected fw f = true <-> chosen fw f.
Proof.
  destruct fw as [l|]; cbn; [|tauto]. rewrite existsb_exists. split.
  - intros (x & I & E). destruct f, x; cbn in E; try discriminate; auto.
  - intro I. exists f. split; [auto|]. destruct f; reflexivity.
Qed.
