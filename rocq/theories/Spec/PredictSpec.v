(** Specification of the prediction metrics, on targets and predictions as
    lists of numbers of one length. *)
From Coq Require Import List ZArith Reals String Permutation.
From Verif.Model Require Import History Messages Vec Metrics Predict.
From Verif.Spec Require Import HistorySpec MetricsSpec.
Import ListNotations.
Local Open Scope R_scope.

(** [matches y p k]: exactly [k] of the predictions [p] equal their target *)
Inductive matches : list R -> list R -> nat -> Prop :=
| m_nil : matches [] [] 0
| m_hit y p k c : matches y p k -> matches (c :: y) (c :: p) (S k)
| m_miss y p k c c' : c <> c' -> matches y p k -> matches (c :: y) (c' :: p) k.
(** the proportion of correct predictions *)
Definition accuracy_is (y p : list R) (r : R) : Prop := exists k, matches y p k /\ r = INR k / INR (List.length y).
(** the mean of the squared differences *)
Inductive square_sum : list R -> list R -> R -> Prop :=
| q_nil : square_sum [] [] 0
| q_cons y p s c c' : square_sum y p s -> square_sum (c :: y) (c' :: p) ((c' - c) ^ 2 + s).
Definition mse_is (y p : list R) (r : R) : Prop := exists s, square_sum y p s /\ r = s / INR (List.length y).

(** true and false positives and false negatives of the class [c] *)
Inductive confusion (c : R) : list R -> list R -> nat -> nat -> nat -> Prop :=
| cf_nil : confusion c [] [] 0 0 0
| cf_tp y p tp fp fn : confusion c y p tp fp fn -> confusion c (c :: y) (c :: p) (S tp) fp fn
| cf_fp y p tp fp fn t : t <> c -> confusion c y p tp fp fn -> confusion c (t :: y) (c :: p) tp (S fp) fn
| cf_fn y p tp fp fn t : t <> c -> confusion c y p tp fp fn -> confusion c (c :: y) (t :: p) tp fp (S fn)
| cf_tn y p tp fp fn t t' : t <> c -> t' <> c -> confusion c y p tp fp fn -> confusion c (t :: y) (t' :: p) tp fp fn.
(** precision and recall as the documentation defines them (metric_library.py:493-499,
    547-553), for the positive class [c] *)
Definition documented_precision (c : R) (y p : list R) (r : R) : Prop :=
  exists tp fp fn, confusion c y p tp fp fn /\ r = INR tp / INR (tp + fp).
Definition documented_recall (c : R) (y p : list R) (r : R) : Prop :=
  exists tp fp fn, confusion c y p tp fp fn /\ r = INR tp / INR (tp + fn).

(** whole numbers, as class labels *)
Definition whole (r : R) : Prop := exists z, r = IZR z.

(** [a] predicts [p] for the features [xs] from its state at [it] *)
Definition predicts {F} (pred : agent_id -> predictor F) (xs : list F) (it : Z) (a : aview) (p : list fval) : Prop :=
  exists x f, state_at it a x /\ pred (v_id a) = Some f /\ p = f x xs.
(** a list with a value that is not a finite number *)
Definition broken (p : list fval) : Prop := exists v, In v p /\ forall r, v <> Fin r.

(** the four prediction metrics per agent *)
Inductive prediction_metric : string -> Prop :=
| pm_accuracy : prediction_metric "accuracy" | pm_mse : prediction_metric "mse"
| pm_precision : prediction_metric "precision" | pm_recall : prediction_metric "recall".

(** ** Choice of metrics *)
(** [l'] is [l] without the elements that fail [P], in the same order *)
Inductive kept {A} (P : A -> Prop) : list A -> list A -> Prop :=
| k_nil : kept P [] []
| k_keep a l l' : P a -> kept P l l' -> kept P (a :: l) (a :: l')
| k_drop a l l' : ~ P a -> kept P l l' -> kept P (a :: l) l'.
(** what the documentation of each metric requires of the problem *)
Section Needs.
  Context {F : Type} (pred : agent_id -> predictor F) (p : problem F).
  Definition all_empirical : Prop := forall a, In a (pb_agents p) -> exists f, pred a = Some f.
  Definition has_test : Prop := exists d, pb_test p = Some d.
  Definition has_labels : Prop := exists d, pb_test p = Some d /\ td_int d = true.
  Definition has_optimum : Prop := exists x, pb_xopt p = Some x.
  Definition federated : Prop := pb_fed p = true.
  Definition documented_need (name : string) : Prop :=
    (if String.eqb name "regret" || String.eqb name "x error" then has_optimum
     else if String.eqb name "accuracy" || String.eqb name "precision" || String.eqb name "recall" then all_empirical /\ has_labels
     else if String.eqb name "mse" then all_empirical /\ has_test
     else if String.eqb name "client drift from server" || String.eqb name "fraction selected clients" then federated
     else if String.eqb name "server mse" then federated /\ all_empirical /\ has_test
     else if String.eqb name "server accuracy" then federated /\ all_empirical /\ has_labels
     else True)%string%bool.
End Needs.
