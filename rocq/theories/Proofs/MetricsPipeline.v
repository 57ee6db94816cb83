From Coq Require Import List Bool Arith ZArith Lia Reals Sorted Permutation FunctionalExtensionality.
From Verif.Model Require Import PyDict History Messages Network Counting Schemes Vec Metrics.
From Verif.Spec Require Import HistorySpec CostSpec MetricsSpec.
From Verif.Proofs Require Import PyDictProofs HistoryProofs SortProofs MetricsProofs.
Import ListNotations.
Local Open Scope nat_scope.

Lemma enumerate_nth {A} (l : list A) i x : In (i, x) (enumerate l) <-> nth_error l i = Some x.
Proof.
  unfold enumerate. assert (H : forall s, In (i, x) (combine (seq s (length l)) l) <-> s <= i /\ nth_error l (i - s) = Some x).
  { induction l as [|y l IH]; intro s; cbn [length seq combine In].
    - split; [tauto|]. intros (_ & E). destruct (i - s); discriminate.
    - rewrite IH. split.
      + intros [[= -> ->]|(L & E)]; [rewrite Nat.sub_diag; auto|]. split; [lia|]. replace (i - s) with (S (i - S s)) by lia. exact E.
      + intros (L & E). destruct (i - s) as [|d] eqn:D.
        * left. cbn in E. f_equal; [lia|congruence].
        * right. split; [lia|]. cbn in E. replace (i - S s) with d by lia. exact E. }
  rewrite H, Nat.sub_0_r. intuition lia.
Qed.

Lemma in_concat_F2 {A B} (R : A -> list B -> Prop) l ys b : Forall2 R l ys ->
  In b (concat ys) <-> exists x y, In x l /\ R x y /\ In y ys /\ In b y.
Proof.
  intro F. rewrite in_concat. split.
  - intros (y & Iy & Ib). induction F as [|x z l ys H F IH]; [destruct Iy|]. destruct Iy as [<-|Iy].
    + exists x, z. cbn. auto.
    + destruct IH as (x' & y' & ? & ? & ? & ?); auto. exists x', y'. cbn. auto 6.
  - intros (x & y & _ & _ & Iy & Ib). eauto.
Qed.
Lemma F2_fun_in {A B} (f : A -> res B) l ys x y : Forall2 (fun a b => f a = Ok b) l ys -> In x l -> f x = Ok y -> In y ys.
Proof. intros F. induction F as [|a b l ys H F IH]; cbn; [tauto|]. intros [->|I] E; [left; congruence|auto]. Qed.
Lemma F2_in {A B} (R : A -> B -> Prop) l ys x : Forall2 R l ys -> In x l -> exists y, In y ys /\ R x y.
Proof. intros F. induction F as [|a b l ys H F IH]; cbn; [tauto|]. intros [->|I]; [eauto|]. destruct (IH I) as (y & ? & ?). eauto. Qed.

Lemma concat_mapR {A B} (f : A -> res (list B)) l r b : rbind (mapR f l) (fun rs => Ok (concat rs)) = Ok r ->
  In b r <-> exists x y, In x l /\ f x = Ok y /\ In b y.
Proof.
  intro E. apply rbind_ok in E. destruct E as (rs & E & [= <-]). apply mapR_ok in E.
  rewrite (in_concat_F2 _ _ _ _ E). split.
  - intros (x & y & ? & ? & _ & ?). eauto.
  - intros (x & y & Ix & Ey & Ib). exists x, y. repeat split; auto. eapply F2_fun_in; eauto.
Qed.
Lemma concat_mapR_each {A B} (f : A -> res (list B)) l r x : rbind (mapR f l) (fun rs => Ok (concat rs)) = Ok r ->
  In x l -> exists y, f x = Ok y.
Proof.
  intros E I. apply rbind_ok in E. destruct E as (rs & E & _). apply mapR_ok in E.
  destruct (F2_in _ _ _ _ E I) as (y & _ & H). eauto.
Qed.

Section P.
  Context {Alg : Type} (to32 : fval -> fval).

  (** the rows of one evaluation of a metric *)
  Lemma at_iter_rows (views : list (Alg * list nview)) m it f w : metrics_at_iter to32 views m it = Ok f ->
    In w f <-> exists p nv vals u, In p views /\ nth_error (snd p) (w_trial w) = Some nv /\ m_compute m nv it = Ok vals /\
      nth_error vals (w_agent w) = Some u /\ w_alg w = fst p /\ w_iter w = it /\ w_value w = clamp (to32 u).
  Proof.
    unfold metrics_at_iter. intro E. rewrite (concat_mapR _ _ _ w E). split.
    - intros (p & y & Ip & Ey & Iw). apply (concat_mapR _ _ _ w) in Ey. apply Ey in Iw.
      destruct Iw as ((i & nv) & y' & Iq & Ey' & Iw). apply enumerate_nth in Iq. cbn [fst snd] in *.
      apply rbind_ok in Ey'. destruct Ey' as (vals & Ev & [= <-]). apply in_map_iff in Iw. destruct Iw as ((j & u) & <- & Iu).
      apply enumerate_nth in Iu. cbn [w_alg w_trial w_agent w_iter w_value fst snd]. exists p, nv, vals, u. auto 8.
    - intros (p & nv & vals & u & Ip & Nv & Ev & Nu & E1 & E2 & E3).
      destruct (concat_mapR_each _ _ _ p E Ip) as (y & Ey). exists p, y. repeat split; auto.
      apply (concat_mapR _ _ _ w Ey). exists (w_trial w, nv). cbn [fst snd]. eexists. split; [now apply enumerate_nth|].
      split; [rewrite Ev; reflexivity|]. apply in_map_iff. exists (w_agent w, u). split; [|now apply enumerate_nth].
      cbn [fst snd]. destruct w; cbn in *; congruence.
  Qed.

  Lemma plot_frame_rows views its m f w : plot_frame to32 (Alg := Alg) views its m = Ok f ->
    In w f <-> exists p nv vals u, In p views /\ nth_error (snd p) (w_trial w) = Some nv /\ m_compute m nv (w_iter w) = Ok vals /\
      nth_error vals (w_agent w) = Some u /\ w_alg w = fst p /\ In (w_iter w) its /\ w_value w = clamp (to32 u).
  Proof.
    unfold plot_frame. intro E. rewrite (concat_mapR _ _ _ w E). split.
    - intros (it & y & Ii & Ey & Iw). apply (at_iter_rows _ _ _ _ _ Ey) in Iw.
      destruct Iw as (p & nv & vals & u & ? & ? & ? & ? & ? & <- & ?). exists p, nv, vals, u. auto 8.
    - intros (p & nv & vals & u & Ip & Nv & Ev & Nu & E1 & Ii & E3).
      destruct (concat_mapR_each _ _ _ _ E Ii) as (y & Ey). exists (w_iter w), y. repeat split; auto.
      apply (at_iter_rows _ _ _ _ _ Ey). exists p, nv, vals, u. auto 8.
  Qed.

  Lemma fold_err {M B} (id : M -> nat) (F : M -> res B) ms r : (forall d, r <> Ok d) ->
    forall d, fold_left (fun acc m => rbind acc (fun d => rbind (F m) (fun f => Ok (dset Nat.eqb d (id m) f)))) ms r <> Ok d.
  Proof.
    revert r. induction ms as [|m ms IH]; intros r H d; cbn [fold_left]; [apply H|]. apply IH. intros d' E.
    apply rbind_ok in E. destruct E as (d'' & E & _). eapply H; eauto.
  Qed.
  Lemma fold_dict {M B} (id : M -> nat) (F : M -> res B) ms : forall d0 d,
    fold_left (fun acc m => rbind acc (fun d => rbind (F m) (fun f => Ok (dset Nat.eqb d (id m) f)))) ms (Ok d0) = Ok d ->
    (forall m m', In m ms -> In m' ms -> id m = id m' -> m = m') ->
    (forall m, In m ms -> exists f, F m = Ok f /\ dget Nat.eqb d (id m) = Some f) /\
    (forall k, ~ In k (map id ms) -> dget Nat.eqb d k = dget Nat.eqb d0 k).
  Proof.
    induction ms as [|m ms IH]; intros d0 d E U; cbn [fold_left] in E.
    - injection E as <-. split; [intros m []|auto].
    - cbn [rbind] in E. destruct (F m) as [f| |] eqn:Ef; cbn [rbind] in E;
        try (exfalso; eapply fold_err; [|exact E]; intros ? X; discriminate).
      destruct (IH _ _ E) as (A & B0); [intros; apply U; auto; right; auto|]. split.
      + intros m' [<-|I]; [|apply A; auto]. destruct (in_dec Nat.eq_dec (id m) (map id ms)) as [J|J].
        * apply in_map_iff in J. destruct J as (m' & Em & Im). assert (m' = m) by (apply U; auto; [right; auto|left; auto]). subst m'. auto.
        * exists f. split; auto. rewrite B0 by auto. now rewrite (dget_dset _ _ Nat.eqb Nat.eqb_spec), Nat.eqb_refl.
      + intros k NI. rewrite B0 by (intro; apply NI; right; auto).
        rewrite (dget_dset _ _ Nat.eqb Nat.eqb_spec). destruct (Nat.eqb_spec k (id m)); auto. exfalso. apply NI. left; auto.
  Qed.

  Lemma fold_max_ge l : forall a k, (k = a \/ In k l) -> (k <= fold_left Z.max l a)%Z.
  Proof.
    induction l as [|b l IH]; intros a k H; cbn [fold_left]; [destruct H as [->|[]]; lia|].
    destruct H as [->|[->|I]].
    - specialize (IH (Z.max a b) (Z.max a b)). lia.
    - specialize (IH (Z.max a k) (Z.max a k)). lia.
    - apply IH. auto.
  Qed.
  Lemma fold_max_in l : forall a, fold_left Z.max l a = a \/ In (fold_left Z.max l a) l.
  Proof.
    induction l as [|b l IH]; intros a; cbn [fold_left]; auto.
    destruct (IH (Z.max a b)) as [E|I]; [|right; right; auto]. rewrite E. destruct (Z.max_spec a b) as [(_ & ->)|(_ & ->)]; [right; left; auto|left; auto].
  Qed.

  Definition views_of t cost (states : list (Alg * list trial)) : list (Alg * list nview) :=
    map (fun p => (fst p, map (from_network t cost) (snd p))) states.

  Lemma in_views t cost states i nv alg :
    (exists p, In p (views_of t cost states) /\ nth_error (snd p) i = Some nv /\ fst p = alg) <->
    exists p tr, In p states /\ nth_error (snd p) i = Some tr /\ fst p = alg /\ nv = from_network t cost tr.
  Proof.
    unfold views_of. split.
    - intros (p & Ip & N & E). apply in_map_iff in Ip. destruct Ip as (q & <- & Iq). cbn [fst snd] in *.
      rewrite nth_error_map in N. destruct (nth_error (snd q) i) as [tr|] eqn:T; [|discriminate]. injection N as <-. eauto 8.
    - intros (q & tr & Iq & N & E & ->). exists (fst q, map (from_network t cost) (snd q)). split; [now apply in_map_iff; eauto|].
      cbn [fst snd]. split; auto. rewrite nth_error_map, N. reflexivity.
  Qed.

  (** ** repeated computation *)
  Lemma mapR_ext2 {A B} (f g : A -> res B) (R : A -> A -> Prop) l l' : (forall x y, R x y -> f x = g y) ->
    Forall2 R l l' -> mapR f l = mapR g l'.
  Proof. intros H F. induction F as [|x y l l' E F IH]; cbn [mapR]; auto. rewrite (H _ _ E), IH. reflexivity. Qed.
  Lemma map_ext2 {A B} (f g : A -> B) (R : A -> A -> Prop) l l' : (forall x y, R x y -> f x = g y) ->
    Forall2 R l l' -> map f l = map g l'.
  Proof. intros H F. induction F as [|x y l l' E F IH]; cbn [map]; auto. rewrite (H _ _ E), IH. reflexivity. Qed.
  Lemma agents_same x y : same_nview x y -> Forall2 same_view (nv_agents x) (nv_agents y).
  Proof.
    intros (F & E). unfold nv_agents. rewrite E. destruct (nv_server y) as [s|]; auto.
    clear E. induction F as [|a b l l' S F IH]; cbn [filter]; [constructor|].
    destruct S as (Ei & S). rewrite Ei. destruct (negb _); auto. constructor; auto. split; auto.
  Qed.
  Lemma x_mean_same l l' it : Forall2 same_view l l' -> x_mean l it = x_mean l' it.
  Proof. intro F. unfold x_mean. rewrite (mapR_ext2 _ (fun a => h_get (v_hist a) it) same_view l l'); auto. intros x y (_ & _ & -> & _). auto. Qed.
  Lemma F2_length {A B} (R : A -> B -> Prop) l l' : Forall2 R l l' -> length l = length l'.
  Proof. induction 1; cbn; auto. Qed.
  Lemma fold_ext2 {A B} (f g : B -> A -> B) (R : A -> A -> Prop) l l' : (forall b x y, R x y -> f b x = g b y) ->
    Forall2 R l l' -> forall b, fold_left f l b = fold_left g l' b.
  Proof. intros H F. induction F as [|x y l l' E F IH]; intros b; cbn [fold_left]; auto. rewrite (H _ _ _ E). apply IH. Qed.
End P.


(** ** metrics that ignore the oracle counters *)
Section Insens.
  Variable n : nat.
  Lemma Regret_ins id xo : insensitive (Regret id xo).
  Proof.
    intros x y it S. cbn [Regret m_compute]. f_equal. unfold regret. apply agents_same in S. rewrite (x_mean_same _ _ it S), (F2_length _ _ _ S).
    destruct (x_mean (nv_agents y) it) as [m| |]; cbn [rbind]; auto.
    assert (H : forall z b, fold_left (fun acc a => (acc + c_fun (v_cost a) z)%R) (nv_agents x) b = fold_left (fun acc a => (acc + c_fun (v_cost a) z)%R) (nv_agents y) b).
    { intros z b. apply (fold_ext2 _ _ same_view); auto. intros ? u v (_ & -> & _). reflexivity. }
    rewrite !H. reflexivity.
  Qed.
  Lemma GradientNorm_ins id : insensitive (GradientNorm n id).
  Proof.
    intros x y it S. cbn [GradientNorm m_compute]. f_equal. unfold gradient_norm. apply agents_same in S. rewrite (x_mean_same _ _ it S).
    destruct (x_mean (nv_agents y) it) as [m| |]; cbn [rbind]; auto.
    assert (H : map (fun a => c_grad (v_cost a) m) (nv_agents x) = map (fun a => c_grad (v_cost a) m) (nv_agents y)).
    { apply (map_ext2 _ _ same_view); auto. intros u v (_ & -> & _). reflexivity. }
    now rewrite H.
  Qed.
  Lemma XError_ins id xo : insensitive (XError n id xo).
  Proof. intros x y it S. cbn [XError m_compute]. unfold x_error. now rewrite (x_mean_same _ _ it (agents_same _ _ S)). Qed.
  Lemma Consensus_ins id : insensitive (ConsensusError n id).
  Proof.
    intros x y it S. cbn [ConsensusError m_compute]. unfold consensus_error. apply agents_same in S. rewrite (x_mean_same _ _ it S).
    destruct (x_mean (nv_agents y) it) as [m| |]; cbn [rbind]; auto.
    erewrite (mapR_ext2 _ _ same_view _ _ _ S). reflexivity. Unshelve. intros u v (_ & _ & -> & _). reflexivity.
  Qed.
  Lemma Loss_ins id : insensitive (Loss id).
  Proof.
    intros x y it S. cbn [Loss m_compute]. unfold losses. apply agents_same in S.
    erewrite (mapR_ext2 _ _ same_view _ _ _ S). reflexivity. Unshelve. intros u v (_ & -> & -> & _). reflexivity.
  Qed.
  Lemma XUpdates_ins id : insensitive (XUpdates id).
  Proof. intros x y it S. cbn [XUpdates m_compute]. apply agents_same in S. erewrite (map_ext2 _ _ same_view _ _ _ S). reflexivity. Unshelve. intros u v (_ & _ & _ & -> & _). reflexivity. Qed.
  Lemma Sent_ins id : insensitive (SentMessages id).
  Proof. intros x y it (S & _). cbn [SentMessages m_compute]. erewrite (map_ext2 _ _ same_view _ _ _ S). reflexivity. Unshelve. intros u v (_ & _ & _ & _ & -> & _). reflexivity. Qed.
  Lemma Recv_ins id : insensitive (ReceivedMessages id).
  Proof. intros x y it (S & _). cbn [ReceivedMessages m_compute]. erewrite (map_ext2 _ _ same_view _ _ _ S). reflexivity. Unshelve. intros u v (_ & _ & _ & _ & _ & -> & _). reflexivity. Qed.
  Lemma Drop_ins id : insensitive (SentMessagesDropped id).
  Proof. intros x y it (S & _). cbn [SentMessagesDropped m_compute]. erewrite (map_ext2 _ _ same_view _ _ _ S). reflexivity. Unshelve. intros u v (_ & _ & _ & _ & _ & _ & -> & _). reflexivity. Qed.
  Lemma find_same (l l' : list aview) s : Forall2 same_view l l' ->
    match find (fun a => Nat.eqb (v_id a) s) l, find (fun a => Nat.eqb (v_id a) s) l' with
    | Some a, Some b => same_view a b | None, None => True | _, _ => False end.
  Proof.
    induction 1 as [|a b l l' S F IH]; cbn [find]; auto. pose proof S as (E & _). rewrite E. destruct (Nat.eqb (v_id b) s); auto.
  Qed.
  Lemma Drift_ins id : insensitive (ClientDrift n id).
  Proof.
    intros x y it S. cbn [ClientDrift m_compute]. unfold nv_server_view. pose proof S as (F & E). rewrite E.
    destruct (nv_server y) as [s|]; auto. pose proof (find_same _ _ s F) as G.
    destruct (find _ (nv_nodes x)) as [a|], (find _ (nv_nodes y)) as [b|]; try contradiction; cbn [rbind]; auto.
    unfold drifts. destruct G as (_ & _ & -> & _). destruct (h_get (v_hist b) it) as [sx| |]; cbn [rbind]; auto.
    apply agents_same in S. erewrite (mapR_ext2 _ _ same_view _ _ _ S). reflexivity. Unshelve. intros u v (_ & _ & -> & _). reflexivity.
  Qed.
  Lemma Fraction_ins id : insensitive (FractionSelected id).
  Proof.
    intros x y it S. cbn [FractionSelected m_compute]. pose proof S as (F & E). rewrite E. destruct (nv_server y); auto. f_equal.
    apply agents_same in S. unfold fraction_selected.
    assert (O : observed_rounds (nv_agents x) = observed_rounds (nv_agents y)).
    { unfold observed_rounds. inversion S as [|u v l l' A B]; subst; auto.
      rewrite (mapR_ext2 _ (fun a => h_max (v_hist a)) same_view (u :: l) (v :: l')); auto. intros ? ? (_ & _ & -> & _). auto. }
    rewrite O, (F2_length _ _ _ S). destruct (observed_rounds (nv_agents y)); cbn [rbind]; auto.
    assert (H : forall b, fold_left (fun s a => s + v_nsel a) (nv_agents x) b = fold_left (fun s a => s + v_nsel a) (nv_agents y) b).
    { apply (fold_ext2 _ _ same_view); auto. intros b u v (_ & _ & _ & _ & _ & _ & _ & ->). reflexivity. }
    now rewrite H.
  Qed.
End Insens.

Section Repeat.
  Context {Alg : Type} (to32 : fval -> fval).
  Definition same_entry (p q : Alg * list nview) : Prop := fst p = fst q /\ Forall2 same_nview (snd p) (snd q).
  Lemma flat_map_ext2 {A B} (f g : A -> list B) (R : A -> A -> Prop) l l' : (forall x y, R x y -> f x = g y) ->
    Forall2 R l l' -> flat_map f l = flat_map g l'.
  Proof. intros H F. induction F as [|x y l l' E F IH]; cbn [flat_map]; auto. rewrite (H _ _ E), IH. reflexivity. Qed.
  Lemma iterations_same vs vs' : Forall2 same_entry vs vs' -> all_iterations vs = all_iterations vs'.
  Proof.
    intro F. unfold all_iterations. f_equal. apply (flat_map_ext2 _ _ same_entry); auto. intros p q (_ & G).
    apply (flat_map_ext2 _ _ same_nview); auto. intros x y (S & _). unfold nv_iterations, all_sorted_iterations. f_equal.
    apply (flat_map_ext2 _ _ same_view); auto. intros a b (_ & _ & -> & _). reflexivity.
  Qed.
  Lemma enumerate_same {A} (R : A -> A -> Prop) l l' : Forall2 R l l' ->
    Forall2 (fun p q : nat * A => fst p = fst q /\ R (snd p) (snd q)) (enumerate l) (enumerate l').
  Proof.
    intro F. unfold enumerate. rewrite (F2_length _ _ _ F). generalize 0. induction F as [|x y l l' E F IH]; intro s; cbn [length seq combine]; constructor; auto.
  Qed.
  Lemma at_iter_same vs vs' m it : insensitive m -> Forall2 same_entry vs vs' ->
    metrics_at_iter to32 vs m it = metrics_at_iter to32 vs' m it.
  Proof.
    intros I F. unfold metrics_at_iter. f_equal. apply (mapR_ext2 _ _ same_entry); auto. intros p q (E & G). rewrite E. f_equal.
    apply (mapR_ext2 _ _ (fun p q : nat * nview => fst p = fst q /\ same_nview (snd p) (snd q))); [|now apply enumerate_same].
    intros x y (E1 & S). rewrite E1, (I _ _ it S). reflexivity.
  Qed.
  Lemma fold_ext_in {A B} (f g : B -> A -> B) l : (forall b x, In x l -> f b x = g b x) -> forall b, fold_left f l b = fold_left g l b.
  Proof. induction l as [|x l IH]; intros H b; cbn [fold_left]; auto. rewrite H by (left; auto). apply IH. intros; apply H; right; auto. Qed.
  Lemma plots_same vs vs' ms its : Forall insensitive ms -> Forall2 same_entry vs vs' ->
    plot_metrics to32 vs ms its = plot_metrics to32 vs' ms its.
  Proof.
    intros I F. unfold plot_metrics. destruct its as [|i0 its]; auto. apply fold_ext_in. intros b m Im.
    rewrite Forall_forall in I. destruct b; cbn [rbind]; auto. unfold plot_frame. f_equal. f_equal.
    generalize (i0 :: its). intro L. induction L as [|i L IH]; cbn [mapR]; auto. rewrite (at_iter_same vs vs' m i (I m Im) F), IH. reflexivity.
  Qed.
  Lemma tables_same vs vs' ms its pr : Forall insensitive ms -> Forall2 same_entry vs vs' ->
    table_metrics to32 vs ms its pr = table_metrics to32 vs' ms its pr.
  Proof.
    intros I F. unfold table_metrics. destruct its as [|i0 its]; auto. cbv zeta. apply fold_ext_in. intros b m Im.
    rewrite Forall_forall in I. destruct b; cbn [rbind]; auto. unfold table_frame.
    rewrite (at_iter_same vs vs' m _ (I m Im) F). reflexivity.
  Qed.
  Lemma after_same t cost plots tables (states : list (Alg * list trial)) :
    Forall2 same_entry (map (fun p => (fst p, map (from_network t cost) (snd p))) (after_metrics t cost plots tables states))
      (map (fun p => (fst p, map (from_network t cost) (snd p))) states).
  Proof.
    unfold after_metrics. generalize (all_iterations (map (fun p : Alg * list trial => (fst p, map (from_network t cost) (snd p))) states)).
    intro its. induction states as [|(A & trs) states IH]; cbn [map]; constructor; auto. split; auto. cbn [fst snd].
    clear IH. induction trs as [|tr trs IH]; cbn [map]; constructor; auto. split; auto. cbn [from_network nv_nodes].
    induction (t_nodes t) as [|a l IH']; cbn [map]; constructor; auto. unfold from_agent. cbn [tr_net].
    repeat split.
  Qed.
End Repeat.
