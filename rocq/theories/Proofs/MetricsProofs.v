From Coq Require Import List Bool Arith ZArith Lia Lra Reals Sorted Permutation FunctionalExtensionality.
From Verif.Model Require Import PyDict History Messages Network Counting Schemes Vec Metrics.
From Verif.Spec Require Import HistorySpec CostSpec MetricsSpec.
From Verif.Proofs Require Import PyDictProofs HistoryProofs SortProofs VecProofs EmpiricalProofs.
Import ListNotations.
Local Open Scope R_scope.

(** ** the iteration axis *)
Lemma sorted_set_In l k : In k (sorted_set l) <-> In k l.
Proof.
  unfold sorted_set. rewrite <- (nodup_In Z.eq_dec l k).
  split; apply Permutation_in; [|apply Permutation_sym]; apply sorted_perm.
Qed.
Lemma insert_sorted x l : StronglySorted Z.lt l -> ~ In x l -> StronglySorted Z.lt (insert Z.leb x l).
Proof.
  induction l as [|y l IH]; intros S NI; cbn [insert]; [repeat constructor|].
  inversion S as [|? ? S' F]; subst. destruct (Z.leb_spec x y).
  - assert (x < y)%Z by (assert (x <> y) by (intros ->; apply NI; left; auto); lia).
    constructor; [constructor; auto|]. constructor; auto. eapply Forall_impl; [|exact F]. intros; cbn in *; lia.
  - constructor; [apply IH; auto; intro; apply NI; right; auto|].
    apply Forall_forall. intros z Hz. apply (Permutation_in _ (insert_perm _ x l)) in Hz. destruct Hz as [<-|Hz]; auto.
    rewrite Forall_forall in F. auto.
Qed.
Lemma sorted_set_sorted l : StronglySorted Z.lt (sorted_set l).
Proof.
  unfold sorted_set. pose proof (NoDup_nodup Z.eq_dec l) as ND. induction ND as [|x m NI ND IH]; cbn [sorted]; [constructor|].
  apply insert_sorted; auto. intro I. apply NI. eapply Permutation_in; [apply sorted_perm|exact I].
Qed.

Lemma all_iterations_In {Alg} (views : list (Alg * list nview)) k :
  In k (all_iterations views) <->
  exists p nv a, In p views /\ In nv (snd p) /\ In a (nv_nodes nv) /\ In k (h_keylist (v_hist a)).
Proof.
  unfold all_iterations. rewrite sorted_set_In, in_flat_map. split.
  - intros (p & Ip & I). apply in_flat_map in I. destruct I as (nv & In1 & I).
    unfold nv_iterations, all_sorted_iterations in I. rewrite sorted_set_In, in_flat_map in I. destruct I as (a & Ia & I).
    exists p, nv, a. auto.
  - intros (p & nv & a & Ip & Inv & Ia & I). exists p. split; auto. apply in_flat_map. exists nv. split; auto.
    unfold nv_iterations, all_sorted_iterations. rewrite sorted_set_In. apply in_flat_map. eauto.
Qed.

(** ** lookups *)
Lemma state_at_get it a x : (0 <= it)%Z -> recorded a -> h_get (v_hist a) it = Ok x <-> state_at it a x.
Proof.
  intros P (log & E). unfold state_at. split.
  - intro G. rewrite E in G. destruct (h_get_spec _ log (h_run log) it (hinv_run _ log) P) as (A & _).
    apply A in G. destruct G as (k & N & L). exists log, k. auto.
  - intros (log' & k & E' & N & L). rewrite E'. destruct (h_get_spec _ log' (h_run log') it (hinv_run _ log') P) as (A & _).
    apply A. eauto.
Qed.
Lemma final_get a x : recorded a -> h_get (v_hist a) (-1) = Ok x <-> final_state a x.
Proof.
  intros (log & E). unfold final_state. split.
  - intro G. rewrite E in G. destruct (h_get_latest_spec _ log (h_run log) (hinv_run _ log)) as (A & _).
    apply A in G. destruct G as (k & N & L). exists log, k. auto.
  - intros (log' & k & E' & N & L). rewrite E'. destruct (h_get_latest_spec _ log' (h_run log') (hinv_run _ log')) as (A & _).
    apply A. eauto.
Qed.
Lemma get_no_keyerror it a : (0 <= it)%Z -> recorded a -> h_get (v_hist a) it <> KeyError.
Proof. intros P (log & ->). apply (h_get_spec _ log (h_run log) it (hinv_run _ log) P). Qed.

Lemma rbind_ok {A B} (m : res A) (f : A -> res B) b : rbind m f = Ok b <-> exists a, m = Ok a /\ f a = Ok b.
Proof. destruct m; cbn; split; try discriminate; try (intros (a' & [=] & ?); congruence); eauto. Qed.
Lemma mapR_ok {A B} (f : A -> res B) l ys : mapR f l = Ok ys <-> Forall2 (fun x y => f x = Ok y) l ys.
Proof.
  revert ys. induction l as [|x l IH]; intros ys; cbn [mapR].
  - split; [intros [= <-]; constructor|]. intro F. now inversion F.
  - rewrite rbind_ok. split.
    + intros (y & E & R). apply rbind_ok in R. destruct R as (zs & R & [= <-]). constructor; auto. now apply IH.
    + intro F. inversion F as [|? y ? zs E F']; subst. exists y. split; auto. apply rbind_ok. exists zs. split; auto. now apply IH.
Qed.
Lemma F2_det {A B} (R : A -> B -> Prop) l xs ys : (forall a x y, In a l -> R a x -> R a y -> x = y) ->
  Forall2 R l xs -> Forall2 R l ys -> xs = ys.
Proof.
  intros D F. revert ys. induction F as [|a x l xs H F IH]; intros ys G; inversion G; subst; auto.
  f_equal; [eapply D; eauto; left; auto|]. apply IH; auto. intros; eapply D; eauto. right; auto.
Qed.
Lemma F2_len {A B} (R : A -> B -> Prop) l xs : Forall2 R l xs -> length l = length xs.
Proof. induction 1; cbn; auto. Qed.
Lemma F2_iff {A B} (P Q : A -> B -> Prop) l xs : (forall a x, In a l -> P a x <-> Q a x) -> Forall2 P l xs <-> Forall2 Q l xs.
Proof.
  intro H. split; intro F; induction F; constructor; try (apply H; auto; left; auto);
    try (apply IHF; intros; apply H; right; auto).
Qed.
Lemma F2_states it l xs : (0 <= it)%Z -> Forall recorded l ->
  Forall2 (fun a x => h_get (v_hist a) it = Ok x) l xs <-> Forall2 (state_at it) l xs.
Proof. intros P R. rewrite Forall_forall in R. apply F2_iff. intros. apply state_at_get; auto. Qed.

(** ** means *)
Lemma reduce_coord xs i : reduce_add xs i = rsum (map (fun x => x i) xs).
Proof.
  destruct xs as [|x xs]; cbn [reduce_add]; [reflexivity|]. cbn [map]. rewrite rsum_cons.
  revert x. induction xs as [|y xs IH]; intros x; cbn [fold_left map]; [rewrite rsum_nil; lra|].
  rewrite IH, rsum_cons. unfold vadd. lra.
Qed.
Lemma average_eq xs : vscal (/ INR (length xs)) (reduce_add xs) = average xs.
Proof. extensionality i. unfold vscal, average. rewrite reduce_coord. unfold Rdiv. ring. Qed.
Lemma x_mean_ok l it m : x_mean l it = Ok m <->
  exists xs, Forall2 (fun a x => h_get (v_hist a) it = Ok x) l xs /\ l <> [] /\ m = average xs.
Proof.
  unfold x_mean. rewrite rbind_ok. split.
  - intros (xs & E & H). apply mapR_ok in E. exists xs. split; auto. destruct xs as [|x xs]; [discriminate|].
    split; [intros ->; inversion E|]. rewrite average_eq in H. congruence.
  - intros (xs & F & NE & ->). exists xs. split; [now apply mapR_ok|]. destruct xs as [|x xs]; [inversion F; congruence|].
    now rewrite average_eq.
Qed.

Lemma fold_cost (z : vec) (l : list aview) : forall acc, fold_left (fun s a => s + c_fun (v_cost a) z) l acc = acc + total_cost l z.
Proof.
  unfold total_cost. induction l as [|a l IH]; intros acc; cbn [fold_left map]; [rewrite rsum_nil; lra|]. rewrite IH, rsum_cons. lra.
Qed.
Lemma regret_ok l xo it r : regret l xo it = Ok r <->
  exists m, x_mean l it = Ok m /\ r = (total_cost l m - total_cost l xo) / INR (length l).
Proof.
  unfold regret. rewrite rbind_ok. split.
  - intros (m & E & [= <-]). exists m. split; auto. rewrite !fold_cost, !Rplus_0_l. reflexivity.
  - intros (m & E & ->). exists m. split; auto. rewrite !fold_cost, !Rplus_0_l. reflexivity.
Qed.

Lemma INR_pos {A} (l : list A) : l <> [] -> 0 < INR (length l).
Proof. destruct l; [congruence|]. intros _. apply lt_0_INR. cbn. lia. Qed.

Section Dim.
  Variable n : nat.
  Lemma l2norm_eq x : l2norm n x = norm n x. Proof. reflexivity. Qed.
  Lemma l2norm_zero x : l2norm n x = 0 <-> same n x vzero.
  Proof.
    rewrite l2norm_eq. split.
    - intros E i Hi. pose proof (coord_le n x i Hi) as C. rewrite E in C. pose proof (Rabs_pos (x i)).
      unfold vzero. destruct (Req_dec (x i) 0); auto. pose proof (Rabs_pos_lt _ H0). lra.
    - intro S. rewrite (norm_ext n x vzero S). apply norm_zero.
  Qed.
  Lemma l2norm_sub_zero x y : l2norm n (vsub x y) = 0 <-> same n x y.
  Proof.
    rewrite l2norm_zero. unfold same, vsub, vzero. split; intros H i Hi; specialize (H i Hi); lra.
  Qed.

  Lemma rsum_sumn {A} (f : A -> nat -> R) (l : list A) k :
    rsum (map (fun a => sumn k (f a)) l) = sumn k (fun i => rsum (map (fun a => f a i) l)).
  Proof.
    induction k as [|k IH]; cbn [sumn].
    - rewrite (rsum_map_ext _ (fun _ => 0 * 0)) by (intros; lra). rewrite rsum_map_scal. lra.
    - rewrite rsum_map_add, IH. reflexivity.
  Qed.
  Lemma sumn_ext k f g : (forall i, (i < k)%nat -> f i = g i) -> sumn k f = sumn k g.
  Proof.
    induction k as [|k IH]; intro H; cbn [sumn]; auto. rewrite IH by (intros; apply H; lia). rewrite H by lia. auto.
  Qed.
  Lemma sumn_plus k f g : sumn k (fun i => f i + g i) = sumn k f + sumn k g.
  Proof. induction k as [|k IH]; cbn [sumn]; [lra|]. rewrite IH. lra. Qed.
  Lemma sumn_scal k a f : sumn k (fun i => a * f i) = a * sumn k f.
  Proof. induction k as [|k IH]; cbn [sumn]; [lra|]. rewrite IH. lra. Qed.
  Lemma rsum_const {A} (c : R) (l : list A) : rsum (map (fun _ => c) l) = INR (length l) * c.
  Proof.
    induction l as [|a l IH]; [cbn [map length INR]; rewrite rsum_nil; lra|].
    cbn [map length]. rewrite rsum_cons, IH, S_INR. lra.
  Qed.

  (** sums of squared distances decompose around the mean *)
  Lemma decompose xs y : xs <> [] ->
    rsum (map (fun x => nrm2 n (vsub x y)) xs) =
    rsum (map (fun x => nrm2 n (vsub (average xs) x)) xs) + INR (length xs) * nrm2 n (vsub (average xs) y).
  Proof.
    intro NE. pose proof (INR_pos xs NE) as P. unfold nrm2, dot. rewrite !rsum_sumn, <- sumn_scal, <- sumn_plus.
    apply sumn_ext. intros i _. unfold vsub. set (m := average xs i).
    assert (M : rsum (map (fun x => x i) xs) = INR (length xs) * m) by (unfold m, average; field; lra).
    rewrite (rsum_map_ext (fun x : vec => (x i - y i) * (x i - y i))
      (fun x : vec => ((m - x i) * (m - x i) + (m - y i) * (m - y i)) + ((2 * (m - y i)) * x i + - (2 * (m - y i) * m)))) by (intros; ring).
    rewrite rsum_map_add, rsum_map_add, rsum_map_add.
    rewrite !rsum_const, rsum_map_scal.
    change (rsum (map (fun x : vec => x i) xs)) with (rsum (map (fun x : nat -> R => x i) xs)). rewrite M.
    match goal with |- ?a + _ + _ = ?b + _ => change b with a; generalize a end. intro. ring.
  Qed.
  Lemma rsum_nonneg l : Forall (fun r => 0 <= r) l -> 0 <= rsum l.
  Proof. induction 1; [rewrite rsum_nil; lra|rewrite rsum_cons; lra]. Qed.
  Lemma l2norm_sq x : l2norm n x * l2norm n x = nrm2 n x.
  Proof. apply norm_sq. Qed.

  Lemma consensus_ok l it es : consensus_error n l it = Ok es <->
    exists xs, Forall2 (fun a x => h_get (v_hist a) it = Ok x) l xs /\ l <> [] /\
      es = map (fun x => l2norm n (vsub (average xs) x)) xs.
  Proof.
    unfold consensus_error. rewrite rbind_ok. split.
    - intros (m & E & F). apply x_mean_ok in E. destruct E as (xs & G & NE & ->). exists xs. split; auto. split; auto.
      apply mapR_ok in F. clear NE. revert F. generalize (average xs) as m. intros m F. revert es F.
      induction G as [|a x l xs Hx G IH]; intros es F; inversion F as [|? e ? es' He F']; subst; auto.
      cbn [map]. apply rbind_ok in He. destruct He as (x' & Hx' & [= <-]).
      rewrite Hx in Hx'. injection Hx' as <-. f_equal. apply IH. exact F'.
    - intros (xs & G & NE & ->). exists (average xs). split; [apply x_mean_ok; eauto|]. apply mapR_ok.
      generalize (average xs) as m. intro m. clear NE. induction G as [|a x l xs Hx G IH]; cbn [map]; constructor; auto.
      rewrite Hx. reflexivity.
  Qed.
  Lemma drifts_ok l s it ds : drifts n l s it = Ok ds <->
    exists sx xs, h_get (v_hist s) it = Ok sx /\ Forall2 (fun a x => h_get (v_hist a) it = Ok x) l xs /\
      ds = map (fun x => l2norm n (vsub x sx)) xs.
  Proof.
    unfold drifts. rewrite rbind_ok. split.
    - intros (sx & E & F). apply mapR_ok in F. exists sx.
      assert (H : exists xs, Forall2 (fun a x => h_get (v_hist a) it = Ok x) l xs /\ ds = map (fun x => l2norm n (vsub x sx)) xs).
      { clear E. induction F as [|a d l ds Hd F (xs & G & ->)]; [exists []; split; constructor|].
        apply rbind_ok in Hd. destruct Hd as (x & Hx & [= <-]). exists (x :: xs). split; [constructor; auto|reflexivity]. }
      destruct H as (xs & G & ->). eauto.
    - intros (sx & xs & E & G & ->). exists sx. split; auto. apply mapR_ok. clear E.
      induction G as [|a x l xs Hx G IH]; cbn [map]; constructor; auto. rewrite Hx. reflexivity.
  Qed.
End Dim.
