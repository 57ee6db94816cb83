(** Number of files kept. *)
From Coq Require Import List Bool Arith ZArith Lia Permutation.
From Verif.Model Require Import PyDict History Messages Network Runner Checkpoint.
From Verif.Spec Require Import RunnerSpec CheckpointSpec.
From Verif.Proofs Require Import PyDictProofs RunnerProofs CheckpointProofs CheckpointRun.
Import ListNotations.
Open Scope nat_scope.

Section F.
  Context {V S : Type}.
  Notation world := (world V S).
  Implicit Types (s : dir world).
  Lemma files_keys s : n_files s = length (keys s). Proof. unfold n_files, keys, dkeys. now rewrite map_length. Qed.
  (** prefixes of [l] leave at most [b] files, all of it at most [c] *)
  Definition bound (l : list (effect world)) s (b : nat) : Prop := forall n, let s' := apply_all (firstn n l) s in n_files s' <= b /\ NoDup (keys s').
  Lemma bound_all l s b : bound l s b -> n_files (apply_all l s) <= b /\ NoDup (keys (apply_all l s)).
  Proof. intro H. specialize (H (length l)). rewrite firstn_all in H. exact H. Qed.
  Lemma bound_app x y s b : bound x s b -> bound y (apply_all x s) b -> bound (x ++ y) s b.
  Proof. intros H1 H2 n. destruct (firstn_split n x y) as [->|(m & ->)]; [apply H1|]. rewrite apply_app. apply H2. Qed.
  Lemma save_bound keep k d s x : NoDup (keys s) -> save keep k d s = Some x ->
    bound x s (Datatypes.S (n_files s)) /\ (x = [] \/ n_files (apply_all x s) <= keep).
  Proof.
    intros ND SV. destruct (already_saved k s) as [[|]|] eqn:AS.
    - unfold save in SV. rewrite AS in SV. injection SV as <-. split; [|now left]. intro n. rewrite firstn_nil. cbn. split; [lia|auto].
    - split.
      + intro n. destruct (save_prefix keep k d s x n ND AS SV) as (_ & N' & _ & L & _). cbn zeta. rewrite !files_keys. split; [exact L|exact N'].
      + right. destruct (save_prefix keep k d s x (length x) ND AS SV) as (_ & N' & _ & _ & CASES). rewrite firstn_all in *. rewrite files_keys.
        assert (PX : d_prog (apply_all x s) = Some (Full k)) by (eapply save_prog; eauto).
        pose proof (save_eq keep k d s x AS SV) as EX.
        assert (K : forall j, In j (keys (apply_all x s)) -> In j (firstn keep (sort_desc (keys (written k d s))))).
        { intros j Hj. rewrite EX, apply_app in Hj. fold (written k d s) in Hj. destruct (written_spec k d s ND) as (_ & _ & N0 & _).
          destruct (pops (skipn keep (sort_desc (keys (written k d s)))) (written k d s) N0) as (_ & _ & _ & _ & G & I). cbn zeta in *.
          pose proof (I j Hj) as J. apply (Permutation_in _ (Permutation_sym (sort_perm _))) in J. rewrite <- (firstn_skipn keep) in J. apply in_app_iff in J. destruct J as [J|J]; auto.
          exfalso. apply key_get in Hj. apply Hj. auto. }
        transitivity (length (firstn keep (sort_desc (keys (written k d s))))); [apply NoDup_incl_length; auto|]. rewrite firstn_length. lia.
    - unfold save in SV. rewrite AS in SV. discriminate.
  Qed.
  Lemma bound_mono l s b b' : b <= b' -> bound l s b -> bound l s b'.
  Proof. intros L H n. destruct (H n). split; [lia|auto]. Qed.
  Lemma saves_bound keep : forall l s b, NoDup (keys s) -> n_files s <= b -> keep <= b -> bound (fst (save_all keep l s)) s (Datatypes.S b) /\ n_files (apply_all (fst (save_all keep l s)) s) <= b.
  Proof.
    induction l as [|(k, w) l IH]; intros s b ND L K; cbn [save_all].
    - cbn [fst]. split; [|cbn; lia]. intro n. rewrite firstn_nil. cbn. split; [lia|auto].
    - destruct (save keep k w s) as [x|] eqn:SV; [|cbn [fst]; split; [intro n; rewrite firstn_nil; cbn; split; [lia|auto]|cbn; lia]].
      destruct (save_bound keep k w s x ND SV) as (B & C). destruct (bound_all _ _ _ B) as (_ & N1).
      assert (L1 : n_files (apply_all x s) <= b) by (destruct C as [->|C]; [exact L|lia]).
      specialize (IH (apply_all x s) b N1 L1 K). destruct (save_all keep l (apply_all x s)) as (y, r). cbn [fst] in *. rewrite apply_app. split; [|apply IH].
      apply bound_app; [eapply bound_mono; [|exact B]; lia|apply IH].
  Qed.
  Lemma visit_bound t period (A : alg V S) w0 step keep s b : NoDup (keys s) -> n_files s <= b -> keep <= b ->
    bound (at_effects (visit t period A w0 step keep s)) s (Datatypes.S b).
  Proof.
    intros ND L K. assert (NIL : bound [] s (Datatypes.S b)) by (intro n; rewrite firstn_nil; cbn; split; [lia|auto]).
    unfold visit. destruct (is_complete s); [exact NIL|]. unfold attempt.
    assert (GO : forall start w, bound (at_effects (let r := run t period A start w in
      let '(x, failed) := save_all keep (wanted step (r_calls r)) s in
      match failed with
      | Some w' => mkAtt x (Returned false w')
      | None =>
        match r_out r with
        | Finished =>
            match mark_complete keep (al_iters A - 1) (r_world r) (apply_all x s) with
            | Some y => mkAtt (x ++ y) (Returned true (fst (r_world r), clear_aux t (snd (r_world r))))
            | None => mkAtt x (Returned false (r_world r))
            end
        | _ => mkAtt x (Returned false (r_world r))
        end
      end)) s (Datatypes.S b)).
    { intros start w. set (r := run t period A start w). cbv zeta. destruct (saves_bound keep (wanted step (r_calls r)) s b ND L K) as (B & C).
      destruct (save_all keep (wanted step (r_calls r)) s) as (x, [w'|]); cbn [fst] in *; [exact B|].
      destruct (r_out r); try exact B. destruct (mark_complete _ _ _ _) as [y|] eqn:MC; [|exact B]. cbn [at_effects].
      destruct (bound_all _ _ _ B) as (_ & N1). apply bound_app; [exact B|]. unfold mark_complete in MC.
      destruct (save keep (al_iters A - 1) (r_world r) (apply_all x s)) as [z|] eqn:SV; [|discriminate]. injection MC as <-.
      destruct (save_bound _ _ _ _ _ N1 SV) as (B2 & C2). apply bound_app; [eapply bound_mono; [|exact B2]; lia|].
      destruct (bound_all _ _ _ B2) as (L2 & N2). intro n. destruct n as [|[|n]]; cbn [firstn apply_all fold_left apply]; rewrite ?firstn_nil; cbn [fold_left]; unfold n_files, keys; cbn [d_ck];
        (split; [unfold n_files in *; lia|exact N2]). }
    destruct (load s); [apply GO|apply GO|exact NIL].
  Qed.
  Lemma killed_files t period (A : alg V S) w0 step keeps s : killed t period A w0 step keeps s ->
    n_files s <= list_max keeps + length keeps /\ NoDup (keys s).
  Proof.
    induction 1 as [|keeps keep s n R IH KP s' Js]; [cbn; split; [lia|constructor]|].
    destruct (visit_bound t period A w0 step keep s (list_max (keep :: keeps) + length keeps) (proj2 IH)) with (n := n) as (B & N').
    - change (list_max (keep :: keeps)) with (Nat.max keep (list_max keeps)). destruct IH. lia.
    - change (list_max (keep :: keeps)) with (Nat.max keep (list_max keeps)). lia.
    - fold s' in B, N'. split; [|exact N']. cbn [length]. lia.
  Qed.
End F.
