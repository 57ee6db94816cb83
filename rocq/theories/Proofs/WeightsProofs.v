From mathcomp Require Import all_ssreflect all_algebra.
From Verif.Model Require Import Weights.
From Verif.Spec Require Import WeightsSpec.
Set Implicit Arguments.
Unset Strict Implicit.
Import Order.TTheory GRing.Theory Num.Theory.
Local Open Scope ring_scope.

Section P.
  Variable F : numFieldType.
  Variables (n : nat) (adj : nat -> seq nat).
  Notation mat := (mat F).
  Notation degree := (degree adj).

  Lemma row_sumE (W : mat) i : row_sum n W i = \sum_(0 <= j < n) W i j.
  Proof.
    have H: forall l (z : F), foldl (fun acc j => acc + W i j) z l = z + \sum_(j <- l) W i j.
      elim=> [|j l IH] z /=; first by rewrite big_nil addr0.
      by rewrite IH big_cons addrA.
    by rewrite /row_sum H add0r /index_iota subn0.
  Qed.

  Definition mw (i j : nat) : F := 1 / (1 + (maxn (degree i) (degree j))%:R).

  Lemma inner_fold i l (W : mat) a b :
    foldl (fun W j => mset W i j (mw i j)) W l a b = if (a == i) && (b \in l) then mw i b else W a b.
  Proof.
    elim: l W => [|j l IH] W /=; first by rewrite andbF.
    rewrite IH in_cons /mset. case: (a =P i) => [->|_] //=.
    case: (b \in l); rewrite ?orbT //= orbF. by case: (b =P j) => [->|].
  Qed.
  Lemma off_fold l (W : mat) a b : uniq l ->
    foldl (fun W i => foldl (fun W j => mset W i j (mw i j)) W (adj i)) W l a b =
    if (a \in l) && (b \in adj a) then mw a b else W a b.
  Proof.
    elim: l W => [|i l IH] W //= /andP [Hi U]. rewrite IH // in_cons inner_fold.
    case: (a =P i) => [->|_] //=. by rewrite (negbTE Hi).
  Qed.
  Lemma off_diagonalE a b : off_diagonal F n adj a b = if (a < n)%N && (b \in adj a) then mw a b else 0.
  Proof. by rewrite /off_diagonal off_fold ?iota_uniq // mem_iota. Qed.

  Lemma diag_fold l (W : mat) a b : uniq l ->
    foldl (fun W i => mset W i i (1 - row_sum n W i)) W l a b =
    if (a \in l) && (b == a) then 1 - row_sum n W a else W a b.
  Proof.
    elim: l W => [|i l IH] W //= /andP [Hi U]. rewrite IH // in_cons.
    have E: forall a', a' != i -> row_sum n (mset W i i (1 - row_sum n W i)) a' = row_sum n W a'.
      move=> a' Na. rewrite !row_sumE. apply: eq_bigr => j _. by rewrite /mset (negbTE Na).
    case: (a =P i) => [->|/eqP Na] /=.
    - rewrite (negbTE Hi) /= /mset eqxx /=. by case: (b == i).
    - rewrite (E a Na) /mset (negbTE Na) /=. by [].
  Qed.
  Lemma weightsE a b : (a < n)%N ->
    weights F n adj a b = if b == a then 1 - \sum_(0 <= j < n) off_diagonal F n adj a j else off_diagonal F n adj a b.
  Proof. move=> Ha. by rewrite /weights diag_fold ?iota_uniq // mem_iota /= Ha /= row_sumE. Qed.

  Hypothesis G : simple_graph n adj.

  Lemma mw_gt0 i j : 0 < mw i j.
  Proof. by rewrite /mw div1r invr_gt0 ltr_paddr ?ltr01 ?ler0n. Qed.
  Lemma mwC i j : mw i j = mw j i.
  Proof. by rewrite /mw maxnC. Qed.

  Lemma degreeE i : (i < n)%N -> degree i = size (adj i).
  Proof. move: G => [_ [_ [NL _]]] Hi. by rewrite /degree /Weights.degree (negbTE (NL _ Hi)) addn0. Qed.

  Lemma off_sum a : (a < n)%N -> \sum_(0 <= j < n) off_diagonal F n adj a j = \sum_(j <- adj a) mw a j.
  Proof.
    move=> Ha. move: G => [R [_ [_ U]]].
    transitivity (\sum_(j <- [seq j <- index_iota 0 n | j \in adj a]) mw a j).
      rewrite big_filter [RHS]big_mkcond. apply: eq_bigr => j _. by rewrite off_diagonalE Ha.
    apply: perm_big. apply: uniq_perm; rewrite ?filter_uniq ?iota_uniq ?U //.
    move=> j. rewrite mem_filter mem_index_iota /=. case: (boolP (j \in adj a)) => //= H. by rewrite (R _ _ Ha H).
  Qed.

  Lemma off_sum_lt1 a : (a < n)%N -> \sum_(0 <= j < n) off_diagonal F n adj a j < 1.
  Proof.
    move=> Ha. rewrite off_sum //.
    have B: \sum_(j <- adj a) mw a j <= \sum_(j <- adj a) (1 / (1 + (degree a)%:R)).
      apply: ler_sum => j _. rewrite /mw !div1r lef_pinv ?posrE ?ltr_paddr ?ltr01 ?ler0n // ler_add2l ler_nat. exact: leq_maxl.
    apply: le_lt_trans B _. rewrite big_const_seq count_predT -degreeE // iter_addr_0 -mulr_natl.
    rewrite div1r. rewrite ltr_pdivr_mulr ?mul1r; last by rewrite ltr_paddr ?ltr01 ?ler0n.
    by rewrite addrC ltr_addl ltr01.
  Qed.

  Lemma weights_sym : symmetric_mat n (weights F n adj).
  Proof.
    move: G => [_ [S _]] i j Hi Hj. rewrite !weightsE //. case: (eqVneq j i) => [->|Nij] //.
    rewrite !off_diagonalE Hi Hj /= S // mwC. by [].
  Qed.
  Lemma off_diag0 a : (a < n)%N -> off_diagonal F n adj a a = 0.
  Proof. move: G => [_ [_ [NL _]]] Ha. by rewrite off_diagonalE (negbTE (NL _ Ha)) andbF. Qed.
  Lemma sum_split (W : mat) a : (a < n)%N ->
    \sum_(0 <= j < n) W a j = W a a + \sum_(0 <= j < n | j != a) W a j.
  Proof.
    move=> Ha. rewrite (bigD1_seq a) /= ?iota_uniq ?mem_index_iota //.
  Qed.
  Lemma weights_rows : rows_sum_to_one n (weights F n adj).
  Proof.
    move=> a Ha. rewrite sum_split // weightsE // eqxx.
    rewrite (sum_split (off_diagonal F n adj) Ha) off_diag0 // add0r.
    have ->: \sum_(0 <= j < n | j != a) weights F n adj a j = \sum_(0 <= j < n | j != a) off_diagonal F n adj a j.
      apply: eq_bigr => j Nj. by rewrite weightsE // (negbTE Nj).
    by rewrite subrK.
  Qed.
  Lemma weights_cols : columns_sum_to_one n (weights F n adj).
  Proof.
    move=> j Hj. rewrite -(weights_rows Hj). rewrite !big_nat. apply: eq_bigr => i /andP [_ Hi]. exact: weights_sym.
  Qed.
  Lemma weights_pos i j : (i < n)%N -> (j < n)%N -> (0 < weights F n adj i j) = (j == i) || (j \in adj i).
  Proof.
    move=> Hi Hj. rewrite weightsE //. case: (eqVneq j i) => [_|_] /=.
    - by rewrite subr_gt0 off_sum_lt1.
    - rewrite off_diagonalE Hi /=. case: (j \in adj i); by rewrite ?mw_gt0 ?ltxx.
  Qed.
  Lemma weights_ge0 : nonnegative_mat n (weights F n adj).
  Proof.
    move=> i j Hi Hj. rewrite weightsE //. case: (eqVneq j i) => [_|_] /=.
    - by rewrite subr_ge0 ltW // off_sum_lt1.
    - rewrite off_diagonalE Hi /=. case: (j \in adj i); last exact: lexx. apply: ltW. exact: mw_gt0.
  Qed.
End P.
