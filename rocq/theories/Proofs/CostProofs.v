(** Cost arithmetic is pointwise (C26). *)
From Coq Require Import Reals List Bool Arith Lra Lia FunctionalExtensionality.
From Verif.Model Require Import Vec Costs.
From Verif.Spec Require Import CostSpec.
Import ListNotations.
Open Scope R_scope.

(** ** A generic evaluation, of which function, gradient and hessian are
    instances *)
Section Gen.
  Context {K St A : Type} (zero : A) (plus minus : A -> A -> A) (times : R -> A -> A)
          (lv : leaf K St -> ev K St A) (rv : regleaf -> vec -> A) (qv : mat -> vec -> R -> vec -> A) (kw_none : K -> bool).
  Hypothesis plusA : forall a b c, plus a (plus b c) = plus (plus a b) c.
  Hypothesis plus0l : forall a, plus zero a = a.
  Hypothesis plus0r : forall a, plus a zero = a.
  Hypothesis timesD : forall r a b, times r (plus a b) = plus (times r a) (times r b).
  Hypothesis times0 : forall r, times r zero = zero.
  Hypothesis timesA : forall r q a, times r (times q a) = times (r * q) a.
  Hypothesis times1 : forall a, times 1 a = a.
  Hypothesis minusE : forall a b, minus a b = plus a (times (-1) b).
  Hypothesis qvD : forall M b c M' b' c' x, qv (madd M M') (vadd b b') (c + c') x = plus (qv M b c x) (qv M' b' c' x).
  Hypothesis qvN : forall M b c x, qv (mscal (-1) M) (vscal (-1) b) (- c) x = times (-1) (qv M b c x).

  Definition gsum (l : list A) : A := fold_left plus l zero.
  Definition greg (r : reg) (x : vec) : A :=
    match r with RLeaf l => rv l x | RComp _ ts => gsum (map (fun t => times (snd t) (rv (fst t) x)) ts) end.
  Fixpoint gemp (e : emp K St) : ev K St A :=
    match e with
    | ELeaf l => lv l
    | EScaled e a => emap (times a) (gemp e)
    | EReg e r => ebind2 plus (gemp e) (eret (greg r))
    end.
  Fixpoint gcost (c : cost K St) : ev K St A :=
    match c with
    | CUser l => lv l
    | CZero _ => eret (fun _ => zero)
    | CQuad _ M b c => pure_nokw kw_none (qv M b c)
    | CReg r => eret (greg r)
    | CEmp e => gemp e
    | CScaled c a => emap (times a) (gcost c)
    | CSum cs => emap gsum (eseq (map gcost cs))
    end.

  Lemma fold_plus : forall l a, fold_left plus l a = plus a (gsum l).
  Proof.
    unfold gsum. induction l as [|b l IH]; intros a; cbn; [now rewrite plus0r|].
    rewrite IH, (IH (plus zero b)), plus0l, plusA. reflexivity.
  Qed.
  Lemma gsum_cons : forall a l, gsum (a :: l) = plus a (gsum l).
  Proof. intros. unfold gsum at 1. cbn. rewrite fold_plus, plus0l. reflexivity. Qed.
  Lemma gsum_app : forall l1 l2, gsum (l1 ++ l2) = plus (gsum l1) (gsum l2).
  Proof.
    induction l1 as [|a l1 IH]; intros; cbn [app]; [unfold gsum at 2; cbn; now rewrite plus0l|].
    rewrite !gsum_cons, IH, plusA. reflexivity.
  Qed.
  Lemma gsum_times : forall r l, gsum (map (times r) l) = times r (gsum l).
  Proof.
    induction l as [|a l IH]; [unfold gsum; cbn; now rewrite times0|].
    cbn [map]. now rewrite !gsum_cons, IH, timesD.
  Qed.

  (** *** evaluations *)
  Lemma eseq_app {B} : forall (m1 m2 : list (ev K St B)) k x s, eseq (m1 ++ m2) k x s = ebind2 (@app B) (eseq m1) (eseq m2) k x s.
  Proof.
    induction m1 as [|m m1 IH]; intros m2 k x s; cbn.
    - unfold ebind2, eret. destruct (eseq m2 k x s) as [[l s']|]; reflexivity.
    - unfold ebind2 in *. destruct (m k x s) as [[a s1]|]; [|reflexivity].
      rewrite IH. destruct (eseq m1 k x s1) as [[l1 s2]|]; [|reflexivity].
      destruct (eseq m2 k x s2) as [[l2 s3]|]; reflexivity.
  Qed.
  Lemma sum_eseq_app : forall cs ds k x s,
    emap gsum (eseq (map gcost (cs ++ ds))) k x s
    = ebind2 plus (emap gsum (eseq (map gcost cs))) (emap gsum (eseq (map gcost ds))) k x s.
  Proof.
    intros. rewrite map_app. unfold emap at 1. rewrite eseq_app. unfold ebind2, emap.
    destruct (eseq (map gcost cs) k x s) as [[l1 s1]|]; [|reflexivity].
    destruct (eseq (map gcost ds) k x s1) as [[l2 s2]|]; [|reflexivity].
    now rewrite gsum_app.
  Qed.
  Lemma sum_eseq_flat : forall c k x s, emap gsum (eseq (map gcost (flat c))) k x s = gcost c k x s.
  Proof.
    intros c k x s.
    assert (One : forall d, emap gsum (eseq [gcost d]) k x s = gcost d k x s).
    { intros d. unfold emap. cbn. unfold ebind2, eret. destruct (gcost d k x s) as [[a s1]|]; [|reflexivity].
      unfold gsum; cbn. now rewrite plus0l. }
    destruct c; cbn [flat map]; try apply One. reflexivity.
  Qed.
  Lemma sum_cost_ok : forall (cs : list (cost K St)) c, sum_cost cs = Ok c -> c = CSum (flat_map flat cs).
  Proof.
    intros cs c H. unfold sum_cost in H. destruct cs as [|c0 cs]; [discriminate|].
    destruct (flat_map flat (c0 :: cs)) as [|d rest]; [discriminate|].
    destruct (validate_all (cost_meta d) rest); cbn in H; [|discriminate]. now injection H as <-.
  Qed.
  Lemma sum_two : forall c1 c2 c, sum_cost [c1; c2] = Ok c -> forall k x s, gcost c k x s = ebind2 plus (gcost c1) (gcost c2) k x s.
  Proof.
    intros c1 c2 c H k x s. apply sum_cost_ok in H. subst c. cbn [flat_map]. rewrite app_nil_r. cbn [gcost].
    rewrite sum_eseq_app. unfold ebind2 at 1. rewrite sum_eseq_flat. unfold ebind2.
    destruct (gcost c1 k x s) as [[a s1]|]; [|reflexivity]. now rewrite sum_eseq_flat.
  Qed.

  (** *** regularizers *)
  Lemma reg_terms_v : forall r w x, gsum (map (fun t => times (snd t) (rv (fst t) x)) (reg_terms r w)) = times w (greg r x).
  Proof.
    intros [l|m ts] w x; cbn [reg_terms greg].
    - unfold gsum; cbn. now rewrite plus0l.
    - rewrite <- gsum_times, !map_map. f_equal. apply map_ext. intros [l v]. cbn. now rewrite timesA.
  Qed.
  Lemma comp_terms_v : forall rs m ts x, comp_terms m rs = Ok ts ->
    gsum (map (fun t => times (snd t) (rv (fst t) x)) ts) = gsum (map (fun rw => times (snd rw) (greg (fst rw) x)) rs).
  Proof.
    induction rs as [|[r w] rs IH]; intros m ts x H; cbn in H; [now injection H as <-|].
    destruct (validate m (reg_meta r)); cbn in H; [|discriminate].
    destruct (comp_terms m rs) as [ts'|e] eqn:E; cbn in H; [|discriminate]. injection H as <-.
    rewrite map_app, gsum_app, reg_terms_v. cbn [map]. now rewrite gsum_cons, (IH _ _ x E).
  Qed.
  Lemma composite_v : forall rs r x, composite rs = Ok r -> greg r x = gsum (map (fun rw => times (snd rw) (greg (fst rw) x)) rs).
  Proof.
    intros rs r x H. unfold composite in H. destruct rs as [|[r0 w0] rs]; [discriminate|].
    destruct (comp_terms (reg_meta r0) ((r0, w0) :: rs)) as [ts|] eqn:E; cbn [rbind] in H; [|discriminate].
    injection H as <-. exact (comp_terms_v _ _ _ x E).
  Qed.
  Lemma composite_two : forall r1 r2 w1 w2 r x, composite [(r1, w1); (r2, w2)] = Ok r ->
    greg r x = plus (times w1 (greg r1 x)) (times w2 (greg r2 x)).
  Proof.
    intros r1 r2 w1 w2 r x H. rewrite (composite_v _ _ x H). cbn [map fst snd]. rewrite !gsum_cons. unfold gsum; cbn.
    now rewrite plus0r.
  Qed.
  Lemma composite_one : forall r1 w1 r x, composite [(r1, w1)] = Ok r -> greg r x = times w1 (greg r1 x).
  Proof.
    intros r1 w1 r x H. rewrite (composite_v _ _ x H). cbn [map fst snd]. rewrite gsum_cons. unfold gsum; cbn.
    now rewrite plus0r.
  Qed.

  (** *** operators *)
  Lemma rbind_ok {B C} : forall (m : res B) (f : B -> res C) c, rbind m f = Ok c -> exists b, m = Ok b /\ f b = Ok c.
  Proof. intros [b|e] f c H; cbn in H; [now exists b|discriminate]. Qed.

  Lemma add_v : forall (c1 c2 c : cost K St), add c1 c2 = Ok c -> forall k x s, gcost c k x s = ebind2 plus (gcost c1) (gcost c2) k x s.
  Proof.
    intros c1 c2 c H k x s.
    assert (D : sum_cost [c1; c2] = Ok c -> gcost c k x s = ebind2 plus (gcost c1) (gcost c2) k x s) by (intros Hu; now apply sum_two).
    destruct c1 as [l|m|m M b q|r|e|c1 a|cs].
    - unfold add in H. apply rbind_ok in H. destruct H as (u & _ & H). now apply D.
    - unfold add in H. apply rbind_ok in H. destruct H as (u & _ & H).
      assert (E : gcost c k x s = gcost c2 k x s) by (destruct c2; injection H as <-; reflexivity).
      rewrite E. unfold ebind2. cbn. unfold eret. destruct (gcost c2 k x s) as [[a s1]|]; [|reflexivity]. now rewrite plus0l.
    - unfold add in H. apply rbind_ok in H. destruct H as (u & _ & H).
      destruct c2; try now apply D. injection H as <-.
      unfold ebind2. cbn. unfold pure_nokw. destruct (kw_none k); [|reflexivity]. now rewrite qvD.
    - unfold add in H. apply rbind_ok in H. destruct H as (u & _ & H).
      destruct c2 as [l2|m2|m2 M2 b2 q2|r2|e2|c2 a2|cs2]; try now apply D.
      apply rbind_ok in H. destruct H as (r' & H & Hc). injection Hc as <-.
      unfold ebind2. cbn. unfold eret. rewrite (composite_two _ _ _ _ _ x H), !times1. reflexivity.
    - destruct e as [l|e a|e r].
      1,2: unfold add in H; apply rbind_ok in H; destruct H as (u & _ & H);
        destruct c2 as [l2|m2|m2 M2 b2 q2|r2|e2|c2 a2|cs2]; try (now apply D);
        apply rbind_ok in H; destruct H as (e' & H & Hc); injection Hc as <-;
        unfold emp_regularized in H; apply rbind_ok in H; destruct H as (u' & _ & H); injection H as <-; reflexivity.
      unfold add in H.
      destruct c2 as [l2|m2|m2 M2 b2 q2|r2|e2|c2 a2|cs2];
        try (apply rbind_ok in H; destruct H as (u & _ & H); now apply D).
      apply rbind_ok in H. destruct H as (r' & H & He). apply rbind_ok in H. destruct H as (u & _ & H).
      apply rbind_ok in He. destruct He as (e' & He & Hc). injection Hc as <-.
      unfold emp_regularized in He. apply rbind_ok in He. destruct He as (u' & _ & He). injection He as <-.
      cbn. unfold ebind2, eret. destruct (gemp e k x s) as [[v s1]|]; [|reflexivity].
      now rewrite (composite_two _ _ _ _ _ x H), !times1, plusA.
    - unfold add in H. apply rbind_ok in H. destruct H as (u & _ & H). now apply D.
    - unfold add in H. now apply D.
  Qed.
  Lemma emap_emap : forall (m : ev K St A) a b k x s, emap (times a) (emap (times b) m) k x s = emap (times (a * b)) m k x s.
  Proof. intros. unfold emap. destruct (m k x s) as [[v s1]|]; [|reflexivity]. now rewrite timesA. Qed.
  Lemma mul_v : forall c a c', mul c a = Ok c' -> forall k x s, gcost c' k x s = emap (times a) (gcost c) k x s.
  Proof.
    intros c a c' H k x s. destruct c as [l|m|m M b q|r|e|c b|cs]; cbn in H; try (injection H as <-; reflexivity).
    - apply rbind_ok in H. destruct H as (r' & H & Hc). injection Hc as <-. cbn. unfold emap, eret.
      now rewrite (composite_one _ _ _ x H).
    - injection H as <-. destruct e; cbn; try reflexivity. now rewrite emap_emap.
    - injection H as <-. cbn. now rewrite emap_emap.
  Qed.
  Lemma neg_v : forall c c', neg c = Ok c' -> forall k x s, gcost c' k x s = emap (times (-1)) (gcost c) k x s.
  Proof. intros c c' H. exact (mul_v _ _ _ H). Qed.
  Lemma div_v : forall c a c', truediv c a = Ok c' -> a <> 0 /\ forall k x s, gcost c' k x s = emap (times (/ a)) (gcost c) k x s.
  Proof.
    intros c a c' H. unfold truediv in H. destruct (Req_EM_T a 0) as [|Na]; [discriminate|]. split; [exact Na|].
    intros. rewrite (mul_v _ _ _ H). unfold Rdiv. now rewrite Rmult_1_l.
  Qed.
  Lemma bind_minus : forall m1 (m2 m3 : ev K St A) k x s, (forall k x s, m3 k x s = emap (times (-1)) m2 k x s) ->
    ebind2 plus m1 m3 k x s = ebind2 minus m1 m2 k x s.
  Proof.
    intros m1 m2 m3 k x s H. unfold ebind2. destruct (m1 k x s) as [[a s1]|]; [|reflexivity].
    rewrite H. unfold emap. destruct (m2 k x s1) as [[b s2]|]; [|reflexivity]. now rewrite minusE.
  Qed.
  Lemma sub_v : forall c1 c2 c, sub c1 c2 = Ok c -> forall k x s, gcost c k x s = ebind2 minus (gcost c1) (gcost c2) k x s.
  Proof.
    intros c1 c2 c H k x s. unfold sub in H. apply rbind_ok in H. destruct H as (u & _ & H).
    assert (D : rbind (neg c2) (add c1) = Ok c -> gcost c k x s = ebind2 minus (gcost c1) (gcost c2) k x s).
    { intros Hd. apply rbind_ok in Hd. destruct Hd as (c2' & Hn & Ha). rewrite (add_v _ _ _ Ha).
      apply bind_minus. now apply neg_v. }
    destruct c1 as [l|m|m M b q|r|e|c1 a|cs]; try (now apply D).
    - destruct c2 as [l2|m2|m2 M2 b2 q2|r2|e2|c2 a2|cs2]; try (now apply D).
      rewrite (add_v _ _ _ H). apply bind_minus. intros k0 x0 s0. cbn. unfold emap, pure_nokw.
      destruct (kw_none k0); [|reflexivity]. now rewrite qvN.
    - destruct c2 as [l2|m2|m2 M2 b2 q2|r2|e2|c2 a2|cs2]; try (now apply D).
      apply rbind_ok in H. destruct H as (r' & H & Hc). injection Hc as <-. unfold ebind2. cbn. unfold eret.
      now rewrite (composite_two _ _ _ _ _ x H), times1, minusE.
  Qed.

  Lemma ebind2_ext : forall (f : A -> A -> A) m1 m1' m2 m2', (forall k x s, m1 k x s = m1' k x s) -> (forall k x s, m2 k x s = m2' k x s) ->
    forall (k : K) x (s : St), ebind2 f m1 m2 k x s = ebind2 f m1' m2' k x s.
  Proof. intros f m1 m1' m2 m2' H1 H2 k x s. unfold ebind2. rewrite H1. destruct (m1' k x s) as [[a s1]|]; [|reflexivity]. now rewrite H2. Qed.
  Lemma emap_ext : forall (f : A -> A) (m1 m1' : ev K St A), (forall k x s, m1 k x s = m1' k x s) -> forall (k : K) x (s : St), emap f m1 k x s = emap f m1' k x s.
  Proof. intros f m1 m1' H1 k x s. unfold emap. now rewrite H1. Qed.

  Lemma build_v : forall e c, build e = Ok c -> forall k x s, gcost c k x s = den gcost plus minus times e k x s.
  Proof.
    induction e as [c0|a IHa b IHb|a IHa b IHb|a IHa|a IHa r|a IHa r]; intros c H; cbn [build den] in *.
    - now injection H as <-.
    - apply rbind_ok in H. destruct H as (ca & Ha & H). apply rbind_ok in H. destruct H as (cb & Hb & H).
      intros. rewrite (add_v _ _ _ H). apply ebind2_ext; auto.
    - apply rbind_ok in H. destruct H as (ca & Ha & H). apply rbind_ok in H. destruct H as (cb & Hb & H).
      intros. rewrite (sub_v _ _ _ H). apply ebind2_ext; auto.
    - apply rbind_ok in H. destruct H as (ca & Ha & H). intros. rewrite (neg_v _ _ H). apply emap_ext; auto.
    - apply rbind_ok in H. destruct H as (ca & Ha & H). intros. rewrite (mul_v _ _ _ H). apply emap_ext; auto.
    - apply rbind_ok in H. destruct H as (ca & Ha & H). intros. rewrite (proj2 (div_v _ _ _ H)). apply emap_ext; auto.
  Qed.

  (** [sum(costs)] *)
  Lemma py_sum_v : forall cs c0 c, py_sum_from (OCost c0) cs = Ok c ->
    forall k x s, gcost c k x s = emap gsum (eseq (map gcost (c0 :: cs))) k x s.
  Proof.
    induction cs as [|d cs IH]; intros c0 c H k x s; cbn [py_sum_from] in H.
    - injection H as <-. cbn. unfold emap, ebind2, eret. destruct (gcost c0 k x s) as [[a s1]|]; [|reflexivity].
      unfold gsum; cbn. now rewrite plus0l.
    - apply rbind_ok in H. destruct H as (c1 & Ha & H). cbn [py_add] in Ha. rewrite (IH _ _ H).
      cbn [map eseq]. unfold emap. unfold ebind2 at 1. rewrite (add_v _ _ _ Ha). unfold ebind2.
      destruct (gcost c0 k x s) as [[a s1]|]; [|reflexivity].
      destruct (gcost d k x s1) as [[b s2]|]; [|reflexivity].
      destruct (eseq (map gcost cs) k x s2) as [[l s3]|]; [|reflexivity].
      now rewrite !gsum_cons, plusA.
  Qed.
End Gen.

(** ** The three instances *)
Ltac vext := repeat (apply functional_extensionality; intro).
Lemma sumn_ext : forall n f g, (forall i, (i < n)%nat -> f i = g i) -> sumn n f = sumn n g.
Proof. induction n; intros f g H; cbn; [reflexivity|]. rewrite (IHn f g), H; auto. Qed.
Lemma sumn_plus : forall n f g, sumn n (fun i => f i + g i) = sumn n f + sumn n g.
Proof. induction n; intros; cbn; [ring|]. rewrite IHn. ring. Qed.
Lemma sumn_scal : forall n a f, sumn n (fun i => a * f i) = a * sumn n f.
Proof. induction n; intros; cbn; [ring|]. rewrite IHn. ring. Qed.
Lemma sumn_zero : forall n, sumn n (fun _ => 0) = 0.
Proof. induction n; cbn; [reflexivity|]. rewrite IHn. ring. Qed.

Section Inst.
  Context {K St : Type} (n : nat) (kw_none : K -> bool).
  Lemma cost_f_gen : cost_f n kw_none = gcost (K:=K) (St:=St) 0 Rplus Rmult l_f rl_f (quad_f n) kw_none.
  Proof. reflexivity. Qed.
  Lemma cost_g_gen : cost_g n kw_none = gcost (K:=K) (St:=St) vzero vadd vscal l_g rl_g (fun A b _ => quad_g n A b) kw_none.
  Proof. reflexivity. Qed.
  Lemma cost_h_gen : cost_h kw_none = gcost (K:=K) (St:=St) mzero madd mscal l_h rl_h (fun A _ _ _ => sym A) kw_none.
  Proof. reflexivity. Qed.

  Lemma quad_f_D : forall M b c M' b' c' x, quad_f n (madd M M') (vadd b b') (c + c') x = quad_f n M b c x + quad_f n M' b' c' x.
  Proof.
    intros. unfold quad_f, dot, mulv, madd, vadd.
    rewrite (sumn_ext n (fun i => x i * _) (fun i => x i * sumn n (fun j => M i j * x j) + x i * sumn n (fun j => M' i j * x j))).
    - rewrite (sumn_ext n (fun i => (b i + b' i) * x i) (fun i => b i * x i + b' i * x i)) by (intros; ring).
      rewrite !sumn_plus. ring.
    - intros i _. rewrite <- Rmult_plus_distr_l, <- sumn_plus. f_equal. apply sumn_ext. intros. ring.
  Qed.
  Lemma quad_f_N : forall M b c x, quad_f n (mscal (-1) M) (vscal (-1) b) (- c) x = -1 * quad_f n M b c x.
  Proof.
    intros. unfold quad_f, dot, mulv, mscal, vscal.
    rewrite (sumn_ext n (fun i => x i * _) (fun i => -1 * (x i * sumn n (fun j => M i j * x j)))).
    - rewrite (sumn_ext n (fun i => -1 * b i * x i) (fun i => -1 * (b i * x i))) by (intros; ring).
      rewrite !sumn_scal. ring.
    - intros i _. rewrite (sumn_ext n _ (fun j => -1 * (M i j * x j))) by (intros; ring). rewrite sumn_scal. ring.
  Qed.
  Lemma quad_g_D : forall M b M' b' x, quad_g n (madd M M') (vadd b b') x = vadd (quad_g n M b x) (quad_g n M' b' x).
  Proof.
    intros. vext. unfold quad_g, mulv, sym, mtr, madd, mscal, vadd.
    rewrite (sumn_ext n _ (fun j => 1/2 * (M x0 j + M j x0) * x j + 1/2 * (M' x0 j + M' j x0) * x j)) by (intros; ring).
    rewrite sumn_plus. ring.
  Qed.
  Lemma quad_g_N : forall M b x, quad_g n (mscal (-1) M) (vscal (-1) b) x = vscal (-1) (quad_g n M b x).
  Proof.
    intros. vext. unfold quad_g, mulv, sym, mtr, madd, mscal, vadd, vscal.
    rewrite (sumn_ext n _ (fun j => -1 * (1/2 * (M x0 j + M j x0) * x j))) by (intros; ring).
    rewrite sumn_scal. ring.
  Qed.

  Ltac laws := intros; vext; unfold vadd, vsub, vscal, vzero, madd, msub, mscal, mzero; try ring.
  Lemma build_f : forall (e : expr K St) c, build e = Ok c -> forall k x s,
    cost_f n kw_none c k x s = den (cost_f n kw_none) Rplus Rminus Rmult e k x s.
  Proof.
    rewrite cost_f_gen. apply build_v; try (intros; ring).
    - apply quad_f_D. - apply quad_f_N.
  Qed.
  Lemma build_g : forall (e : expr K St) c, build e = Ok c -> forall k x s,
    cost_g n kw_none c k x s = den (cost_g n kw_none) vadd vsub vscal e k x s.
  Proof.
    rewrite cost_g_gen. apply build_v; try (laws; fail).
    - intros. apply quad_g_D. - intros. apply quad_g_N.
  Qed.
  Lemma build_h : forall (e : expr K St) c, build e = Ok c -> forall k x s,
    cost_h kw_none c k x s = den (cost_h kw_none) madd msub mscal e k x s.
  Proof.
    rewrite cost_h_gen. apply build_v; try (laws; fail); intros; vext; unfold sym, mtr, madd, mscal; ring.
  Qed.
  Lemma sum_f : forall (cs : list (cost K St)) c, py_sum cs = Ok c -> forall k x s,
    cost_f n kw_none c k x s = emap rsum (eseq (map (cost_f n kw_none) cs)) k x s.
  Proof.
    intros cs c H k x s. rewrite cost_f_gen. unfold py_sum in H. destruct cs as [|c0 cs]; [discriminate|].
    cbn [py_sum_from py_add] in H. destruct (Req_EM_T 0 0) as [_|N]; [|now contradiction N]. cbn [rbind] in H.
    change rsum with (gsum 0 Rplus). revert k x s. eapply py_sum_v; try (intros; ring); try exact H.
    apply quad_f_D.
  Qed.
End Inst.
