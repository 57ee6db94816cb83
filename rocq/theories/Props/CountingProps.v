(** C05: oracle-call counting. *)
From Coq Require Import List Bool Arith ZArith Lia.
From Verif.Model Require Import PyDict Messages Counting.
From Verif.Spec Require Import CountingSpec.
From Verif.Proofs Require Import PyDictProofs CountingProofs.
Import ListNotations.
Open Scope nat_scope.

(** Any program of calls, nested no_count blocks and exceptions: each counter
    is the total size of the successful calls made outside every block that
    lists the agent, and counting is enabled again everywhere afterwards. *)
Theorem C05_counts_are_exact : forall (p : prog),
  let s := fst (exec p c_init) in
  (forall a k, c_count s a k = counted a k false p) /\ (forall a, c_depth s a = 0%Z) /\ snd (exec p c_init) = raises p.
Proof.
  intros p s. destruct (exec_spec p c_init) as (A & B & C); [simpl; lia|]. repeat split; auto; intros; unfold s; rewrite ?C, ?A; reflexivity.
Qed.

(** Overlapping blocks, closed in any order: at every moment a call is counted
    iff no open block lists its agent. *)
Theorem C05_overlapping_blocks : forall (l : list fop) a k n,
  let s := f_run l in
  let s' := f_run (l ++ [FCall a k n true]) in
  (forall b j, (b, j) <> (a, k) -> c_count (f_c s') b j = c_count (f_c s) b j) /\
  c_count (f_c s') a k = c_count (f_c s) a k + (if open_listings a (f_open s) =? 0 then n else 0) /\
  (f_open s = [] -> forall b, c_depth (f_c s) b = 0%Z).
Proof.
  intros l a k n s s'. destruct (finv_run l) as (_ & D). fold s in D.
  assert (E : s' = f_step s (FCall a k n true)) by (unfold s', f_run; rewrite fold_left_app; reflexivity).
  rewrite E. cbn [f_step f_c]. unfold do_call. cbn [negb]. rewrite D. split; [|split].
  - intros b j H. destruct (0 <? _)%Z; simpl; auto. destruct (Nat.eqb_spec b a); simpl; auto.
    destruct j, k; simpl; auto; congruence.
  - destruct (Z.ltb_spec 0 (Z.of_nat (open_listings a (f_open s)))); destruct (Nat.eqb_spec (open_listings a (f_open s)) 0); try lia; simpl; try lia.
    rewrite Nat.eqb_refl. destruct k; simpl; auto.
  - intros O b. rewrite D, O. reflexivity.
Qed.

Example C05_nonvacuous :
  let p := PSeq (PCall 0 KGradient 5 true)
             (PSeq (PTry (PNoCount [0;1] (PSeq (PNoCount [0;0] (PCall 0 KGradient 7 true)) (PSeq (PCall 2 KGradient 3 true) PRaise))) PSkip)
                   (PSeq (PCall 0 KGradient 2 true) (PCall 1 KFunction 1 true))) in
  map (fun a => c_count (fst (exec p c_init)) a KGradient) [0;1;2] = [7;0;3] /\ c_count (fst (exec p c_init)) 1 KFunction = 1 /\
  snd (exec p c_init) = false.
Proof. vm_compute. auto. Qed.
Example C05_overlap_nonvacuous :
  let s := f_run [FEnter 1 [0]; FEnter 2 [0;1]; FExit 1; FCall 0 KGradient 4 true; FCall 2 KGradient 1 true; FExit 2; FCall 0 KGradient 2 true] in
  c_count (f_c s) 0 KGradient = 2 /\ c_count (f_c s) 2 KGradient = 1 /\ f_open s = [].
Proof. vm_compute. auto. Qed.

Print Assumptions C05_counts_are_exact.
Print Assumptions C05_overlapping_blocks.
