(** C01, C02: histories. *)
From Coq Require Import String List ZArith Bool Sorted.
From Verif.Model Require Import PyDict History.
From Verif.Spec Require Import HistorySpec.
From Verif.Proofs Require Import PyDictProofs HistoryProofs.
Import ListNotations.
Open Scope Z_scope.

(** C01. [h_run ws] is the object after the writes [ws] (rejected ones caught). *)
Theorem C01_lookup_nearest_preceding : forall (V : Type) (ws : list (Z * V)) (q : Z), 0 <= q ->
  (forall v, h_get (h_run ws) q = Ok v <-> exists k, nearest_preceding ws q k /\ last_write ws k v) /\
  (h_get (h_run ws) q = ValueError <-> forall k, written ws k -> q < k) /\
  h_get (h_run ws) q <> KeyError.
Proof. intros. apply h_get_spec; auto. apply hinv_run. Qed.

Theorem C01_lookup_latest : forall (V : Type) (ws : list (Z * V)),
  (forall v, h_get (h_run ws) (-1) = Ok v <-> exists k, latest ws k /\ last_write ws k v) /\
  (h_get (h_run ws) (-1) = ValueError <-> forall k, ~ written ws k) /\
  h_get (h_run ws) (-1) <> KeyError.
Proof. intros. apply h_get_latest_spec. apply hinv_run. Qed.

Theorem C01_rejections : forall (V : Type) (h : history V) (k : Z) (x : V),
  (k < -1 -> h_get h k = ValueError) /\
  (h_set h k x = ValueError <-> k < 0) /\ h_set h k x <> KeyError.
Proof.
  intros. unfold h_get, h_set. split; [|split].
  - intro H. apply Z.ltb_lt in H. now rewrite H.
  - destruct (Z.ltb_spec k 0); split; intro; auto; try discriminate.
    exfalso. apply (Z.lt_irrefl k). apply Z.lt_le_trans with 0; auto.
  - destruct (k <? 0); discriminate.
Qed.

(** Concrete instance: out-of-order writes with an overwrite. *)
Example C01_nonvacuous :
  let h := h_run [(20, "b"%string); (0, "a"%string); (10, "c"%string); (20, "d"%string)] in
  h_get h 23 = Ok "d"%string /\ h_get h 19 = Ok "c"%string /\ h_get h (-1) = Ok "d"%string /\
  h_get (h_run [(5, "e"%string)]) 4 = ValueError.
Proof. vm_compute. auto. Qed.

(** C02. *)
Theorem C02_keys_sorted_exact : forall (V : Type) (ws : list (Z * V)),
  let h := h_run ws in
  StronglySorted Z.lt (h_keylist h) /\
  (forall k, In k (h_keylist h) <-> written ws k) /\
  (forall k, h_contains h k = true <-> written ws k) /\
  h_len h = length (h_keylist h).
Proof.
  intros V ws h. destruct (hinv_run V ws) as (S & N & KD & LE & W & L).
  split; [exact S|]. split; [exact W|]. split.
  - intro k. unfold h_contains. rewrite (dmem_In _ _ _ Z.eqb_spec). rewrite <- W. symmetry. apply KD.
  - unfold h_len, h_keylist. symmetry. exact LE.
Qed.

Theorem C02_items_exact : forall (V : Type) (ws : list (Z * V)) k ov,
  In (k, ov) (h_items (h_run ws)) <-> exists v, ov = Some v /\ last_write ws k v.
Proof.
  intros V ws k ov. destruct (hinv_run V ws) as (S & N & KD & LE & W & L).
  unfold h_items. rewrite in_map_iff. split.
  - intros (k' & E & I). injection E as -> <-.
    destruct (hinv_value _ ws (h_run ws) k) as (v & HA & LW); [apply hinv_run|auto|].
    exists v. split; auto. now apply L.
  - intros (v & -> & LW). exists k. split.
    + f_equal. now apply L.
    + apply W. destruct LW as (P & l1 & l2 & E & _). split; auto. exists v. rewrite E.
      apply in_app_iff; simpl; auto.
Qed.

Theorem C02_min_max : forall (V : Type) (ws : list (Z * V)),
  let h := h_run ws in
  (forall m, h_max h = Ok m <-> latest ws m) /\ (h_max h = ValueError <-> forall k, ~ written ws k) /\
  (forall m, h_min h = Ok m <-> earliest ws m) /\ (h_min h = ValueError <-> forall k, ~ written ws k).
Proof.
  intros V ws h. destruct (h_max_spec V ws h) as (A & B & _); [apply hinv_run|].
  destruct (h_min_spec V ws h) as (C & D & _); [apply hinv_run|]. auto.
Qed.

Example C02_nonvacuous :
  let h := h_run [(20, 1%nat); (0, 2%nat); (-3, 9%nat); (10, 3%nat); (20, 4%nat)] in
  h_keylist h = [0; 10; 20] /\ h_len h = 3%nat /\ h_max h = Ok 20 /\ h_min h = Ok 0 /\
  h_items h = [(0, Some 2%nat); (10, Some 3%nat); (20, Some 4%nat)].
Proof. vm_compute. auto. Qed.

Print Assumptions C01_lookup_nearest_preceding.
Print Assumptions C02_keys_sorted_exact.
