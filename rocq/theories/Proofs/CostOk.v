(** When cost arithmetic succeeds (C26). *)
From Coq Require Import Reals List Bool Arith Lra Lia.
From Verif.Model Require Import Vec Costs.
From Verif.Spec Require Import CostSpec.
From Verif.Proofs Require Import CostProofs.
Import ListNotations.
Open Scope R_scope.

Lemma meta_eqb_spec : forall a b, meta_eqb a b = true <-> a = b.
Proof.
  intros [[s f] d] [[s' f'] d']. unfold meta_eqb. destruct (list_nat_eqb s s') as [->|N].
  - rewrite !andb_true_iff, !Nat.eqb_eq. split; [intros [[_ ->] ->]; reflexivity|intros H; injection H as -> ->; auto].
  - split; [discriminate|intros H; injection H as -> _ _; contradiction].
Qed.
Lemma validate_ok : forall a b, validate a b = Ok tt <-> a = b.
Proof. intros. unfold validate. rewrite <- meta_eqb_spec. destruct (meta_eqb a b); split; congruence. Qed.
Lemma validate_refl : forall a, validate a a = Ok tt.
Proof. intros. now apply validate_ok. Qed.
Lemma validate_err : forall a b, a <> b -> validate a b = Err ValueError.
Proof. intros a b H. unfold validate. destruct (meta_eqb a b) eqn:E; [|reflexivity]. apply meta_eqb_spec in E. contradiction. Qed.

Section Ok.
  Context {K St : Type}.
  Notation cost := (cost K St).
  Lemma wf_sum : forall cs : list cost, wf (CSum cs) <-> cs <> [] /\ Forall (fun d => wf d /\ cost_meta d = cost_meta (CSum cs)) cs.
  Proof.
    intros cs. cbn [wf]. split; intros [N H]; split; try exact N; revert H;
      generalize (cost_meta (CSum cs)); intros m; clear N; induction cs as [|d cs IH]; intros H.
    - constructor.
    - destruct H as (W & E & H). constructor; auto.
    - exact I.
    - apply Forall_cons_iff in H. destruct H as [[W E] H']. split; [exact W|split; [exact E|apply IH; exact H']].
  Qed.
  Lemma wf_flat : forall c : cost, wf c -> flat c <> [] /\ Forall (fun d => wf d /\ cost_meta d = cost_meta c) (flat c).
  Proof.
    intros c W. destruct c; cbn [flat]; try (split; [discriminate|repeat constructor; exact W]).
    apply wf_sum in W. exact W.
  Qed.
  Lemma validate_all_ok : forall (cs : list cost) m, Forall (fun d => cost_meta d = m) cs -> validate_all m cs = Ok tt.
  Proof. induction cs as [|c cs IH]; intros m H; cbn; [reflexivity|]. inversion H; subst. rewrite validate_refl. cbn. auto. Qed.
  Lemma validate_all_err : forall (cs : list cost) m, Exists (fun d => cost_meta d <> m) cs -> validate_all m cs = Err ValueError.
  Proof.
    induction cs as [|c cs IH]; intros m H; [inversion H|]. cbn. unfold validate at 1.
    destruct (meta_eqb m (cost_meta c)) eqn:E; cbn; [|reflexivity]. apply meta_eqb_spec in E.
    inversion H as [? ? H1|? ? H1]; subst; [now contradiction H1|]. auto.
  Qed.
  Lemma sum_two_ok : forall c1 c2 : cost, wf c1 -> wf c2 -> cost_meta c1 = cost_meta c2 ->
    exists c, sum_cost [c1; c2] = Ok c /\ wf c /\ cost_meta c = cost_meta c1.
  Proof.
    intros c1 c2 W1 W2 E. destruct (wf_flat _ W1) as [N1 F1]. destruct (wf_flat _ W2) as [N2 F2].
    unfold sum_cost. cbn [flat_map]. rewrite app_nil_r. rewrite <- E in F2.
    pose proof (Forall_app (fun d => wf d /\ cost_meta d = cost_meta c1) (flat c1) (flat c2)) as FA.
    destruct FA as [_ FA]. specialize (FA (conj F1 F2)).
    destruct (flat c1 ++ flat c2) as [|d rest] eqn:Ed.
    { apply app_eq_nil in Ed. now destruct Ed. }
    inversion FA as [|? ? [Wd Hd] Hr]; subst. exists (CSum (d :: rest)). split; [|split].
    - rewrite validate_all_ok; [reflexivity|]. eapply Forall_impl; [|exact Hr]. cbn. intros a [_ Ha]. congruence.
    - apply wf_sum. split; [discriminate|]. eapply Forall_impl; [|exact FA]. cbn. intros a [Wa Ha]. split; congruence.
    - exact Hd.
  Qed.
  Lemma sum_two_err : forall c1 c2 : cost, wf c1 -> wf c2 -> cost_meta c1 <> cost_meta c2 -> sum_cost [c1; c2] = Err ValueError.
  Proof.
    intros c1 c2 W1 W2 E. destruct (wf_flat _ W1) as [N1 F1]. destruct (wf_flat _ W2) as [N2 F2].
    unfold sum_cost. cbn [flat_map]. rewrite app_nil_r.
    destruct (flat c1) as [|d r1]; [contradiction|]. destruct (flat c2) as [|d2 r2]; [contradiction|]. cbn [app].
    inversion F1 as [|? ? [_ Hd] _]; subst. inversion F2 as [|? ? [_ Hd2] _]; subst.
    rewrite validate_all_err; [reflexivity|]. apply Exists_app. right. constructor. congruence.
  Qed.
  Lemma composite_two_ok : forall r1 r2 w1 w2, reg_meta r1 = reg_meta r2 ->
    exists r, composite [(r1, w1); (r2, w2)] = Ok r /\ reg_meta r = reg_meta r1.
  Proof.
    intros r1 r2 w1 w2 E. unfold composite. cbn [comp_terms]. rewrite <- E, validate_refl. cbn.
    eexists. split; [reflexivity|]. reflexivity.
  Qed.
  Lemma composite_one_ok : forall r1 w1, exists r, composite [(r1, w1)] = Ok r /\ reg_meta r = reg_meta r1.
  Proof. intros r1 w1. unfold composite. cbn [comp_terms]. rewrite validate_refl. cbn. eexists. split; reflexivity. Qed.

  Definition good (m : meta) (r : res cost) : Prop := exists c, r = Ok c /\ wf c /\ cost_meta c = m.
  Lemma add_ok : forall c1 c2 : cost, wf c1 -> wf c2 -> cost_meta c1 = cost_meta c2 -> good (cost_meta c1) (add c1 c2).
  Proof.
    intros c1 c2 W1 W2 E. pose proof (sum_two_ok _ _ W1 W2 E) as D.
    destruct c1 as [l|m|m M b q|r|e|c1 a|cs]; unfold add; rewrite <- ?E, ?validate_refl; cbn [rbind]; try exact D.
    - destruct c2; eexists; (split; [reflexivity|]); split; auto.
    - destruct c2; try exact D. eexists; (split; [reflexivity|]); split; [exact I|reflexivity].
    - destruct c2 as [l2|m2|m2 M2 b2 q2|r2|e2|c2 a2|cs2]; try exact D.
      destruct (composite_two_ok r r2 1 1 E) as (r' & Hr & Hm). rewrite Hr. cbn. eexists; (split; [reflexivity|]). split; [exact I|exact Hm].
    - destruct e as [l|e a|e r].
      1,2: destruct c2 as [l2|m2|m2 M2 b2 q2|r2|e2|c2 a2|cs2]; try exact D;
        cbn [cost_meta] in E; unfold emp_regularized; rewrite <- E, validate_refl; cbn;
        eexists; (split; [reflexivity|]); split; [cbn in *; auto|reflexivity].
      destruct c2 as [l2|m2|m2 M2 b2 q2|r2|e2|c2 a2|cs2]; rewrite ?validate_refl; try exact D.
      cbn in W1. destruct W1 as [We Wm]. cbn [cost_meta emp_meta] in E. rewrite Wm in E.
      destruct (composite_two_ok r r2 1 1 E) as (r' & Hr & Hm). rewrite Hr.
      rewrite E, validate_refl. cbn [rbind]. unfold emp_regularized. rewrite Wm, Hm, validate_refl. cbn.
      eexists; (split; [reflexivity|]). split; [cbn; split; [exact We|congruence]|reflexivity].
  Qed.
  Lemma add_err : forall c1 c2 : cost, wf c1 -> wf c2 -> cost_meta c1 <> cost_meta c2 -> add c1 c2 = Err ValueError.
  Proof.
    intros c1 c2 W1 W2 E. pose proof (sum_two_err _ _ W1 W2 E) as D.
    destruct c1 as [l|m|m M b q|r|e|c1 a|cs]; unfold add; try (rewrite (validate_err _ _ E); reflexivity); [|exact D].
    destruct e as [l|e a|e r]; try (rewrite (validate_err _ _ E); reflexivity).
    destruct c2; try (rewrite (validate_err _ _ E); reflexivity).
    rewrite validate_err; [reflexivity|]. cbn in *. destruct W1. congruence.
  Qed.
  Lemma mul_ok : forall (c : cost) a, wf c -> good (cost_meta c) (mul c a).
  Proof.
    intros c a W. destruct c as [l|m|m M b q|r|e|c b|cs]; cbn [mul scaled_cost];
      try (eexists; (split; [reflexivity|]); split; [exact W|reflexivity]).
    - destruct (composite_one_ok r a) as (r' & Hr & Hm). rewrite Hr. cbn. eexists; (split; [reflexivity|]). split; [exact I|exact Hm].
    - destruct e; eexists; (split; [reflexivity|]); split; try exact W; reflexivity.
  Qed.
  Lemma neg_ok : forall c : cost, wf c -> good (cost_meta c) (neg c).
  Proof. intros. now apply mul_ok. Qed.
  Lemma div_ok : forall (c : cost) a, wf c -> a <> 0 -> good (cost_meta c) (truediv c a).
  Proof. intros c a W N. unfold truediv. destruct (Req_EM_T a 0); [contradiction|]. now apply mul_ok. Qed.
  Lemma sub_ok : forall c1 c2 : cost, wf c1 -> wf c2 -> cost_meta c1 = cost_meta c2 -> good (cost_meta c1) (sub c1 c2).
  Proof.
    intros c1 c2 W1 W2 E. unfold sub. rewrite <- E, validate_refl. cbn [rbind].
    assert (D : good (cost_meta c1) (rbind (neg c2) (add c1))).
    { destruct (neg_ok _ W2) as (c2' & -> & W2' & E2). cbn. apply add_ok; congruence. }
    destruct c1 as [l|m|m M b q|r|e|c1 a|cs]; try exact D.
    - destruct c2; try exact D. now apply add_ok.
    - destruct c2 as [l2|m2|m2 M2 b2 q2|r2|e2|c2 a2|cs2]; try exact D.
      destruct (composite_two_ok r r2 1 (-1) E) as (r' & Hr & Hm). rewrite Hr. cbn. eexists; (split; [reflexivity|]). split; [exact I|exact Hm].
  Qed.
  Lemma sub_err : forall c1 c2 : cost, cost_meta c1 <> cost_meta c2 -> sub c1 c2 = Err ValueError.
  Proof. intros c1 c2 E. unfold sub. now rewrite (validate_err _ _ E). Qed.

  Lemma build_ok : forall (e : expr K St) m,
    Forall wf (leaves e) -> Forall (fun c => cost_meta c = m) (leaves e) -> Forall (fun r => r <> 0) (divisors e) -> good m (build e).
  Proof.
    induction e as [c|a IHa b IHb|a IHa b IHb|a IHa|a IHa r|a IHa r]; intros m W M N; cbn [leaves divisors build] in *.
    - inversion W; inversion M; subst. exists c. auto.
    - apply Forall_app in W, M, N. destruct W as [Wa Wb], M as [Ma Mb], N as [Na Nb].
      destruct (IHa m Wa Ma Na) as (ca & -> & Wca & Mca). destruct (IHb m Wb Mb Nb) as (cb & -> & Wcb & Mcb). cbn.
      rewrite <- Mca. apply add_ok; congruence.
    - apply Forall_app in W, M, N. destruct W as [Wa Wb], M as [Ma Mb], N as [Na Nb].
      destruct (IHa m Wa Ma Na) as (ca & -> & Wca & Mca). destruct (IHb m Wb Mb Nb) as (cb & -> & Wcb & Mcb). cbn.
      rewrite <- Mca. apply sub_ok; congruence.
    - destruct (IHa m W M N) as (ca & -> & Wca & Mca). cbn. rewrite <- Mca. now apply neg_ok.
    - destruct (IHa m W M N) as (ca & -> & Wca & Mca). cbn. rewrite <- Mca. now apply mul_ok.
    - inversion N; subst. destruct (IHa m W M) as (ca & -> & Wca & Mca); [assumption|]. cbn. rewrite <- Mca. now apply div_ok.
  Qed.
  Lemma build_only : forall (e : expr K St) c, Forall wf (leaves e) -> build e = Ok c ->
    Forall (fun d => cost_meta d = cost_meta c) (leaves e) /\ Forall (fun r => r <> 0) (divisors e) /\ wf c.
  Proof.
    induction e as [c0|a IHa b IHb|a IHa b IHb|a IHa|a IHa r|a IHa r]; intros c W H; cbn [leaves divisors build] in *.
    - injection H as <-. inversion W; subst. repeat constructor; auto.
    - apply Forall_app in W. destruct W as [Wa Wb].
      apply rbind_ok in H. destruct H as (ca & Ha & H). apply rbind_ok in H. destruct H as (cb & Hb & H). cbn in H.
      destruct (IHa _ Wa Ha) as (Ma & Na & Wca), (IHb _ Wb Hb) as (Mb & Nb & Wcb).
      assert (E : cost_meta ca = cost_meta cb).
      { destruct (meta_eqb (cost_meta ca) (cost_meta cb)) eqn:Em; [now apply meta_eqb_spec|].
        rewrite add_err in H; auto; [discriminate|]. intros C. apply meta_eqb_spec in C. congruence. }
      destruct (add_ok _ _ Wca Wcb E) as (c' & Hc & Wc & Mc). rewrite Hc in H. injection H as <-.
      split; [|split; auto]; apply Forall_app; (split; [rewrite ?Mc; auto|rewrite ?Mc, ?E; auto]).
    - apply Forall_app in W. destruct W as [Wa Wb].
      apply rbind_ok in H. destruct H as (ca & Ha & H). apply rbind_ok in H. destruct H as (cb & Hb & H). cbn in H.
      destruct (IHa _ Wa Ha) as (Ma & Na & Wca), (IHb _ Wb Hb) as (Mb & Nb & Wcb).
      assert (E : cost_meta ca = cost_meta cb).
      { destruct (meta_eqb (cost_meta ca) (cost_meta cb)) eqn:Em; [now apply meta_eqb_spec|].
        rewrite sub_err in H; auto; [discriminate|]. intros C. apply meta_eqb_spec in C. congruence. }
      destruct (sub_ok _ _ Wca Wcb E) as (c' & Hc & Wc & Mc). rewrite Hc in H. injection H as <-.
      split; [|split; auto]; apply Forall_app; (split; [rewrite ?Mc; auto|rewrite ?Mc, ?E; auto]).
    - apply rbind_ok in H. destruct H as (ca & Ha & H). destruct (IHa _ W Ha) as (Ma & Na & Wca).
      destruct (neg_ok _ Wca) as (c' & Hc & Wc & Mc). rewrite Hc in H. injection H as <-. rewrite Mc. auto.
    - apply rbind_ok in H. destruct H as (ca & Ha & H). destruct (IHa _ W Ha) as (Ma & Na & Wca). cbn in H.
      destruct (mul_ok _ r Wca) as (c' & Hc & Wc & Mc). rewrite Hc in H. injection H as <-. rewrite Mc. auto.
    - apply rbind_ok in H. destruct H as (ca & Ha & H). destruct (IHa _ W Ha) as (Ma & Na & Wca). cbn in H.
      assert (Nr : r <> 0) by (intros ->; unfold truediv in H; destruct (Req_EM_T 0 0); [discriminate|auto]).
      destruct (div_ok _ r Wca Nr) as (c' & Hc & Wc & Mc). rewrite Hc in H. injection H as <-. rewrite Mc. auto.
  Qed.
End Ok.
