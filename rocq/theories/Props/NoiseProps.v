(** C111: noise on messages. *)
From Coq Require Import String Reals Arith List Bool Lia Lra ZArith.
From Verif.Model Require Import PyDict History Messages Network Noise.
From Verif.Spec Require Import NetworkSpec.
From Verif.Props Require Import NetworkProps.
Import ListNotations.
Local Open Scope R_scope.

Section noise.
  Context (t : topo) (act : nat -> agent_id -> nat -> bool) (drop : nat -> agent_id -> bool) (comp : nat -> agent_id -> entries -> entries) (csize : agent_id -> entries -> Z)
    (scheme : agent_id -> noise_scheme) (size : nat) (z : nat -> nat -> R).
  Let e := noisy_env act drop comp csize scheme size z.

  (** A send that is accepted hands the confirmed receivers the compressed message
      plus [mean + std * draw] in every entry; receivers and entries have draws of
      their own. *)
  Theorem C111_gaussian st ops s rc m c st' mean std :
    wf_topo t -> fresh st -> scheme s = GaussianNoise mean std -> send t e (nrun t e st ops) s rc (Some m) c = SOk st' ->
    exists confirmed d1 d2,
      (forall r, In r confirmed -> exists i v, nth_error confirmed i = Some r /\ sees st' r s c v
         /\ forall j, (j < size)%nat -> v j = comp d1 s m j + (mean + std * z d2 (i * size + j)%nat))
      /\ (forall i j i' j', (j < size)%nat -> (j' < size)%nat -> (i * size + j = i' * size + j')%nat -> i = i' /\ j = j')
      /\ (forall r, ~ In r confirmed -> a_msgs (n_agents st' r) = a_msgs (n_agents (nrun t e st ops) r)).
  Proof.
    intros W F S E. destruct (C07_each_delivery_has_its_own_noise _ t e st ops s rc m c st' W F E) as (conf & d1 & d2 & H & N & _).
    exists conf, d1, d2. split; [|split; [|exact N]].
    - intros r I. destruct (H r I) as (i & Hi & V). exists i. eexists. split; [exact Hi|]. split; [exact V|]. intros j _.
      unfold noisy, e, noisy_env. cbn [e_noise e_comp e_add]. unfold message_noise, make_noise. rewrite S. reflexivity.
    - intros i j i' j' Hj Hj' Q. assert (A : forall i j, (j < size)%nat -> ((i * size + j) / size = i)%nat) by (intros a b Hb; rewrite Nat.div_add_l by lia; rewrite Nat.div_small by lia; lia).
      assert (i = i') by (rewrite <- (A i j Hj), <- (A i' j' Hj'); now rewrite Q). subst. split; [reflexivity|lia].
  Qed.

  (** Without noise, or with a deviation of zero, all confirmed receivers hold the
      same: the compressed message, shifted by the mean. *)
  Theorem C111_no_spread st ops s rc m c st' shift :
    wf_topo t -> fresh st -> (scheme s = NoNoise /\ shift = 0) \/ scheme s = GaussianNoise shift 0 -> send t e (nrun t e st ops) s rc (Some m) c = SOk st' ->
    exists confirmed d1,
      (forall r, In r confirmed -> exists v, sees st' r s c v /\ forall j, v j = comp d1 s m j + shift)
      /\ (forall r, ~ In r confirmed -> a_msgs (n_agents st' r) = a_msgs (n_agents (nrun t e st ops) r)).
  Proof.
    intros W F S E. destruct (C07_each_delivery_has_its_own_noise _ t e st ops s rc m c st' W F E) as (conf & d1 & d2 & H & N & _).
    exists conf, d1. split; [|exact N]. intros r I. destruct (H r I) as (i & Hi & V). eexists. split; [exact V|]. intro j.
    unfold noisy, e, noisy_env. cbn [e_noise e_comp e_add]. unfold message_noise, make_noise. destruct S as [[S ->]|S]; rewrite S; [lra|]. unfold add_entries, row. lra.
  Qed.
End noise.
Example C111_no_spread_case : exists st', send ex_t (noisy_env (fun _ _ _ => true) (fun _ _ => false) (fun _ _ m => m) (fun _ _ => 2%Z) (fun _ => GaussianNoise 3 0) 2 (fun d k => INR k))
    (nrun ex_t (noisy_env (fun _ _ _ => true) (fun _ _ => false) (fun _ _ m => m) (fun _ _ => 2%Z) (fun _ => GaussianNoise 3 0) 2 (fun d k => INR k)) (init_net (fun _ => None)) [NStep 0]) 1%nat RNone (Some (fun _ => 5)) "x"%string = SOk st'.
Proof. eexists. reflexivity. Qed.
Definition ex_noise := noisy_env (fun _ _ _ => true) (fun d _ => Nat.eqb d 0) (fun _ _ m => m) (fun _ _ => 2%Z) (fun _ => GaussianNoise 1 (1 / 2)) 2 (fun d k => INR k).
Example C111_gaussian_case : exists st', send ex_t ex_noise (nrun ex_t ex_noise (init_net (fun _ => None)) [NStep 0]) 1%nat RNone (Some (fun _ => 5)) "x"%string = SOk st'
  /\ exists v, sees st' 2%nat 1%nat "x"%string v /\ v 1%nat = 5 + (1 + 1 / 2 * 3).
Proof. eexists. split; [reflexivity|]. eexists. split; [reflexivity|]. cbn. unfold add_entries, row. cbn. lra. Qed.

(** Negative deviations are refused, all others accepted as given. *)
Theorem C111_constructor mean std :
  (std < 0 -> gaussian_noise mean std = None) /\ (0 <= std -> gaussian_noise mean std = Some (GaussianNoise mean std)).
Proof. unfold gaussian_noise. split; intro H; destruct (Rlt_dec std 0); try reflexivity; lra. Qed.
Example C111_constructor_case : gaussian_noise 1 0 = Some (GaussianNoise 1 0) /\ gaussian_noise 0 (-1) = None.
Proof. split; apply C111_constructor; lra. Qed.

(** A shift of the mean shifts what is added, and scaling the deviation scales the
    deviation from the mean: the same draws. *)
Theorem C111_location_scale mean std z size i j :
  exists f, make_noise (GaussianNoise mean std) z = Some f
  /\ exists f0, make_noise (GaussianNoise 0 1) z = Some f0 /\ row size f i j = mean + std * row size f0 i j.
Proof. eexists. split; [reflexivity|]. eexists. split; [reflexivity|]. unfold row. lra. Qed.
Example C111_location_scale_case : exists f, make_noise (GaussianNoise 1 2) (fun k => INR k) = Some f /\ (row 3 f 2%nat 1%nat = 15)%R.
Proof. eexists. split; [reflexivity|]. unfold row. cbn. lra. Qed.

Print Assumptions C111_gaussian.
Print Assumptions C111_no_spread.
Print Assumptions C111_constructor.
Print Assumptions C111_location_scale.
