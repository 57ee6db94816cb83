From Coq Require Import List Bool.
From Verif.Model Require Import PyDict.
Import ListNotations.

Section P.
  Variables (K V : Type) (keqb : K -> K -> bool).
  Hypothesis keqb_spec : forall a b, reflect (a = b) (keqb a b).

  Lemma keqb_refl k : keqb k k = true.
  Proof. destruct (keqb_spec k k); congruence. Qed.

  Lemma dget_dset_eq (d : dict K V) k v : dget keqb (dset keqb d k v) k = Some v.
  Proof.
    induction d as [|[k' v'] d IH]; simpl.
    - now rewrite keqb_refl.
    - destruct (keqb k k') eqn:E; simpl; rewrite E; auto.
  Qed.

  Lemma dget_dset_neq (d : dict K V) k k2 v : k <> k2 -> dget keqb (dset keqb d k v) k2 = dget keqb d k2.
  Proof.
    intro N. induction d as [|[k' v'] d IH]; simpl.
    - destruct (keqb_spec k2 k); congruence.
    - destruct (keqb_spec k k'); simpl.
      + subst k'. destruct (keqb_spec k2 k); congruence.
      + now rewrite IH.
  Qed.

  Lemma dget_dset (d : dict K V) k k2 v :
    dget keqb (dset keqb d k v) k2 = if keqb k2 k then Some v else dget keqb d k2.
  Proof.
    destruct (keqb_spec k2 k).
    - subst. apply dget_dset_eq.
    - apply dget_dset_neq; congruence.
  Qed.

  Lemma dget_In (d : dict K V) k v : dget keqb d k = Some v -> In (k, v) d.
  Proof.
    induction d as [|[k' v'] d IH]; simpl; [discriminate|].
    destruct (keqb_spec k k'); [intros [= <-]; subst; auto | auto].
  Qed.

  Lemma dget_None_iff (d : dict K V) k : dget keqb d k = None <-> ~ In k (dkeys d).
  Proof.
    induction d as [|[k' v'] d IH]; simpl; [intuition|].
    destruct (keqb_spec k k').
    - subst; split; [discriminate | intro H; exfalso; apply H; auto].
    - rewrite IH. intuition congruence.
  Qed.

  Lemma dmem_In (d : dict K V) k : dmem keqb d k = true <-> In k (dkeys d).
  Proof.
    unfold dmem. destruct (dget keqb d k) eqn:E.
    - split; auto. intros _. apply dget_In in E. now apply (in_map fst) in E.
    - split; [discriminate|]. intro H. now apply dget_None_iff in E.
  Qed.

  Lemma dkeys_dset (d : dict K V) k v :
    dkeys (dset keqb d k v) = if dmem keqb d k then dkeys d else dkeys d ++ [k].
  Proof.
    unfold dmem. induction d as [|[k' v'] d IH]; simpl; auto.
    destruct (keqb_spec k k'); simpl; auto.
    unfold dkeys in *; simpl. rewrite IH.
    destruct (dget keqb d k); reflexivity.
  Qed.

  Lemma NoDup_dset (d : dict K V) k v : NoDup (dkeys d) -> NoDup (dkeys (dset keqb d k v)).
  Proof.
    intro H. rewrite dkeys_dset. destruct (dmem keqb d k) eqn:E; auto.
    assert (N : ~ In k (dkeys d)) by (intro X; apply dmem_In in X; congruence).
    clear E. induction (dkeys d) as [|a l IH]; simpl.
    - constructor; [intros []|constructor].
    - inversion H; subst. constructor.
      + rewrite in_app_iff; simpl. intros [X|[X|[]]]; [auto|subst; apply N; simpl; auto].
      + apply IH; auto. intro X; apply N; simpl; auto.
  Qed.

  Lemma dget_NoDup (d : dict K V) k v : NoDup (dkeys d) -> In (k, v) d -> dget keqb d k = Some v.
  Proof.
    induction d as [|[k' v'] d IH]; simpl; [intros _ []|].
    intros H [E|I].
    - inversion E; subst. now rewrite keqb_refl.
    - inversion H; subst. destruct (keqb_spec k k').
      + subst. exfalso. apply H2. now apply (in_map fst) in I.
      + auto.
  Qed.

  Lemma dget_dpop_eq (d : dict K V) k : NoDup (dkeys d) -> dget keqb (dpop keqb d k) k = None.
  Proof.
    induction d as [|[k' v'] d IH]; simpl; auto.
    intro H; inversion H; subst. destruct (keqb_spec k k'); simpl.
    - subst. now apply dget_None_iff.
    - destruct (keqb_spec k k'); [congruence|auto].
  Qed.

  Lemma dget_dpop_neq (d : dict K V) k k2 : k <> k2 -> dget keqb (dpop keqb d k) k2 = dget keqb d k2.
  Proof.
    intro N. induction d as [|[k' v'] d IH]; simpl; auto.
    destruct (keqb_spec k k'); simpl.
    - subst k'. destruct (keqb_spec k2 k); congruence.
    - now rewrite IH.
  Qed.

  Lemma dget_dpop (d : dict K V) k k2 : NoDup (dkeys d) ->
    dget keqb (dpop keqb d k) k2 = if keqb k2 k then None else dget keqb d k2.
  Proof.
    intro H. destruct (keqb_spec k2 k).
    - subst. now apply dget_dpop_eq.
    - apply dget_dpop_neq; congruence.
  Qed.

  Lemma In_dkeys_dpop (d : dict K V) k k2 : In k2 (dkeys (dpop keqb d k)) -> In k2 (dkeys d).
  Proof.
    induction d as [|[k' v'] d IH]; simpl; auto.
    destruct (keqb k k'); simpl; intuition.
  Qed.

  Lemma NoDup_dpop (d : dict K V) k : NoDup (dkeys d) -> NoDup (dkeys (dpop keqb d k)).
  Proof.
    induction d as [|[k' v'] d IH]; simpl; auto.
    intro H; inversion H; subst. destruct (keqb k k'); simpl; auto.
    constructor; auto. intro X. apply In_dkeys_dpop in X. auto.
  Qed.
End P.
