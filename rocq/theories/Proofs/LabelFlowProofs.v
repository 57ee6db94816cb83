From Coq Require Import List Bool Arith ZArith Permutation Lia.
From Verif.Model Require Import PyDict Schemes Partition LabelFlow.
From Verif.Spec Require Import PartitionSpec.
From Verif.Proofs Require Import SortProofs PartitionProofs SplitProofs.
Import ListNotations.
Open Scope nat_scope.

(** ** sums over nodes *)
Lemma nsum_S n f : nsum (S n) f = (nsum n f + f n)%Z.
Proof.
  unfold nsum. rewrite seq_S, map_app. simpl. generalize (map f (seq 0 n)) as l.
  induction l; simpl; lia.
Qed.
Lemma nsum_0 f : nsum 0 f = 0%Z. Proof. reflexivity. Qed.
Lemma nsum_ext n f g : (forall u, u < n -> f u = g u) -> nsum n f = nsum n g.
Proof. induction n; intro H; auto. rewrite !nsum_S, IHn, (H n); auto. Qed.
Lemma nsum_add n f g : nsum n (fun u => f u + g u)%Z = (nsum n f + nsum n g)%Z.
Proof. induction n; auto. rewrite !nsum_S, IHn. lia. Qed.
Lemma nsum_sub n f g : nsum n (fun u => f u - g u)%Z = (nsum n f - nsum n g)%Z.
Proof. induction n; auto. rewrite !nsum_S, IHn. lia. Qed.
Lemma nsum_opp n f : nsum n (fun u => - f u)%Z = (- nsum n f)%Z.
Proof. induction n; auto. rewrite !nsum_S, IHn. lia. Qed.
Lemma nsum_mul n a f : nsum n (fun u => a * f u)%Z = (a * nsum n f)%Z.
Proof. induction n; [rewrite !nsum_0; lia|]. rewrite !nsum_S, IHn. lia. Qed.
Lemma nsum_zero n f : (forall u, u < n -> f u = 0%Z) -> nsum n f = 0%Z.
Proof. induction n; intro H; auto. rewrite nsum_S, IHn, (H n); auto. Qed.
Lemma nsum_le n f g : (forall u, u < n -> (f u <= g u)%Z) -> (nsum n f <= nsum n g)%Z.
Proof.
  induction n; intro H; [reflexivity|]. rewrite !nsum_S. pose proof (H n ltac:(lia)). specialize (IHn (fun u U => H u ltac:(lia))). lia.
Qed.
Lemma nsum_le_eq n f g : (forall u, u < n -> (f u <= g u)%Z) -> nsum n f = nsum n g -> forall u, u < n -> f u = g u.
Proof.
  induction n; intros H E u Hu; [lia|]. rewrite !nsum_S in E. pose proof (H n ltac:(lia)).
  pose proof (nsum_le n f g (fun u U => H u ltac:(lia))). destruct (Nat.eq_dec u n) as [->|]; [lia|]. apply IHn; auto; lia.
Qed.
Lemma nsum_swap n m (f : nat -> nat -> Z) : nsum n (fun u => nsum m (f u)) = nsum m (fun v => nsum n (fun u => f u v)).
Proof.
  induction n.
  - rewrite nsum_0. symmetry. apply nsum_zero. auto.
  - rewrite nsum_S, IHn, <- nsum_add. apply nsum_ext. intros v _. now rewrite nsum_S.
Qed.
Lemma nsum_ind n w x : nsum n (fun u => if u =? w then x else 0%Z) = if w <? n then x else 0%Z.
Proof.
  induction n; auto. rewrite nsum_S, IHn. destruct (Nat.ltb_spec w n), (Nat.eqb_spec n w), (Nat.ltb_spec w (S n)); lia.
Qed.
Lemma nsum_split n m f : nsum (n + m) f = (nsum n f + nsum m (fun i => f (n + i)%nat))%Z.
Proof.
  induction m; [rewrite Nat.add_0_r, nsum_0; lia|]. rewrite Nat.add_succ_r, !nsum_S, IHm. lia.
Qed.
Lemma nsum_shift n f : nsum (S n) f = (f 0%nat + nsum n (fun i => f (S i)))%Z.
Proof. replace (S n) with (1 + n) by lia. rewrite nsum_split. f_equal. rewrite nsum_S, nsum_0. lia. Qed.
Lemma nsum_list xs k : length xs = k -> nsum k (fun i => Z.of_nat (nth i xs 0)) = Z.of_nat (list_sum xs).
Proof.
  revert k. induction xs as [|x xs IH]; intros k <-; simpl; [reflexivity|]. rewrite nsum_shift. simpl. rewrite (IH _ eq_refl). lia.
Qed.

(** ** cuts *)
Section Cut.
  Variables (n : nat) (c : nat -> nat -> Z) (s t : nat).
  Hypothesis Hs : s < n.
  Definition cut (S0 : nat -> bool) (f : nat -> nat -> Z) : Z :=
    nsum n (fun u => if S0 u then nsum n (fun v => if S0 v then 0%Z else f u v) else 0%Z).
  Lemma cut_value f S0 : flow_in n c s t f -> S0 s = true -> S0 t = false -> nsum n (f s) = cut S0 f.
  Proof.
    intros (SK & CP & CO) Ss St.
    assert (A : nsum n (fun u => if S0 u then nsum n (f u) else 0%Z) = nsum n (f s)).
    { transitivity (nsum n (fun u => if u =? s then nsum n (f s) else 0%Z)).
      - apply nsum_ext. intros u Hu. destruct (Nat.eqb_spec u s) as [->|D]; [now rewrite Ss|].
        destruct (S0 u) eqn:E; auto. apply CO; auto. intros ->. congruence.
      - rewrite nsum_ind. destruct (Nat.ltb_spec s n); [auto|lia]. }
    rewrite <- A. unfold cut.
    set (X := nsum n (fun u => nsum n (fun v => if S0 u then if S0 v then f u v else 0%Z else 0%Z))).
    assert (B : nsum n (fun u => if S0 u then nsum n (f u) else 0%Z) =
                (X + nsum n (fun u => if S0 u then nsum n (fun v => if S0 v then 0%Z else f u v) else 0%Z))%Z).
    { unfold X. rewrite <- nsum_add. apply nsum_ext. intros u _. destruct (S0 u).
      - rewrite <- nsum_add. apply nsum_ext. intros v _. destruct (S0 v); lia.
      - rewrite nsum_zero; [lia|]. auto. }
    assert (C : X = (- X)%Z).
    { unfold X at 1. rewrite nsum_swap. unfold X. rewrite <- nsum_opp. apply nsum_ext. intros u _. rewrite <- nsum_opp.
      apply nsum_ext. intros v _. destruct (S0 u), (S0 v); try lia. apply SK. }
    lia.
  Qed.
  Lemma cut_le S0 f g : (forall u v, u < n -> v < n -> S0 u = true -> S0 v = false -> (f u v <= g u v)%Z) -> (cut S0 f <= cut S0 g)%Z.
  Proof.
    intro H. unfold cut. apply nsum_le. intros u Hu. destruct (S0 u) eqn:E; [|lia]. apply nsum_le. intros v Hv.
    destruct (S0 v) eqn:F; [lia|]. auto.
  Qed.
End Cut.

(** ** breadth-first search *)
Section BFS.
  Variables (n : nat) (a : adj) (c : caps) (s t : nat).
  Hypothesis Hs : s < n.
  Hypothesis Hadj : forall u v, In v (a u) -> v < n.
  Definition seen (par : parents) v : Prop := par v <> None.
  Definition tree (par : parents) (rank : nat -> nat) : Prop :=
    par s = Some s /\
    forall v, seen par v -> v < n /\ rank v < n /\ (v = s \/ exists u, par v = Some u /\ seen par u /\ rank u < rank v /\ (0 < c u v)%Z).
  Record binv (par : parents) (dn queue : list nat) (rank : nat -> nat) : Prop := {
    b_tree : tree par rank;
    b_mem : forall v, seen par v <-> In v (dn ++ queue);
    b_nd : NoDup (dn ++ queue);
    b_rank : forall v, seen par v -> rank v < length (dn ++ queue);
    b_sink : par t = None }.
  Definition closed_at (par : parents) (u : nat) (vs : list nat) : Prop := forall v, In v vs -> (0 < c u v)%Z -> seen par v.

  Lemma set1_eq {A} (f : nat -> A) u x : set1 f u x u = x.
  Proof. unfold set1. now rewrite Nat.eqb_refl. Qed.
  Lemma set1_neq {A} (f : nat -> A) u x v : v <> u -> set1 f u x v = f v.
  Proof. intro H. unfold set1. destruct (Nat.eqb_spec v u); tauto. Qed.
  Lemma nodup_bound (l : list nat) : NoDup l -> (forall x, In x l -> x < n) -> length l <= n.
  Proof.
    intros N B. rewrite <- (seq_length n 0). apply NoDup_incl_length; auto. intros x I. apply in_seq. specialize (B x I). lia.
  Qed.

  (** adding a vertex to the tree *)
  Lemma tree_add par rank node v (l : list nat) : tree par rank -> par v = None -> seen par node -> (0 < c node v)%Z -> v < n ->
    (forall w, seen par w -> rank w < length l) -> length l < n ->
    tree (set1 par v (Some node)) (set1 rank v (length l)) /\
    (forall w, seen (set1 par v (Some node)) w <-> seen par w \/ w = v) /\
    (forall w, seen par w -> set1 rank v (length l) w = rank w).
  Proof.
    intros [T1 T2] PV SN C Hv RL LL.
    assert (SM : forall w, seen (set1 par v (Some node)) w <-> seen par w \/ w = v).
    { intro w. unfold seen, set1. destruct (Nat.eqb_spec w v) as [->|]; [split; auto; discriminate|tauto]. }
    assert (RK : forall w, seen par w -> set1 rank v (length l) w = rank w).
    { intros w W. apply set1_neq. intros ->. contradiction. }
    split; [|auto]. split.
    - rewrite set1_neq; auto. intros <-. unfold seen in *. congruence.
    - intros w W. apply SM in W. destruct W as [W| ->].
      + destruct (T2 w W) as (A & B & D). rewrite RK by auto. split; auto. split; auto.
        destruct D as [D|(u & P & Q & R & S)]; auto. right. exists u. rewrite set1_neq by (intros ->; contradiction).
        rewrite RK by auto. rewrite SM. auto.
      + split; auto. rewrite set1_eq. split; auto. right. exists node. rewrite set1_eq, RK by auto. rewrite SM. auto.
  Qed.

  Lemma scan_spec node nbs : forall par dn queue rank par' queue' found,
    (forall v, In v nbs -> v < n) -> In node dn -> binv par dn queue rank ->
    scan c t node nbs par queue = (par', queue', found) ->
    exists rank', (forall v, seen par v -> seen par' v) /\
      (found = true -> tree par' rank' /\ seen par' t) /\
      (found = false -> binv par' dn queue' rank' /\ closed_at par' node nbs).
  Proof.
    induction nbs as [|v nbs IH]; intros par dn queue rank par' queue' found B N I E; simpl in E.
    - injection E as <- <- <-. exists rank. split; auto. split; [discriminate|]. intros _. split; auto. intros v [].
    - destruct (match par v with Some _ => true | None => false end || (c node v <=? 0)%Z) eqn:X.
      + apply (IH _ dn _ rank) in E; auto; [|intros; apply B; simpl; auto].
        destruct E as (r' & M & F & G). exists r'. split; auto. split; auto. intro Q. specialize (G Q). destruct G as [G1 G2]. split; auto.
        intros w [<-|W] C; [|apply G2; auto]. apply orb_true_iff in X. destruct X as [X|X].
        * apply M. unfold seen. destruct (par v); [discriminate|discriminate].
        * apply Z.leb_le in X. lia.
      + apply orb_false_iff in X. destruct X as [X1 X2]. apply Z.leb_gt in X2.
        assert (PV : par v = None) by (destruct (par v); [discriminate|auto]).
        assert (Hv : v < n) by (apply B; simpl; auto).
        destruct I as [IT IM IN IR IS].
        assert (SN : seen par node) by (apply IM, in_or_app; auto).
        assert (LL : length (dn ++ queue) < n).
        { assert (NI : ~ In v (dn ++ queue)) by (intro Q; apply IM in Q; contradiction).
          assert (length (v :: dn ++ queue) <= n).
          { apply nodup_bound; [constructor; auto|]. intros x [<-|Q]; auto. apply IM in Q. apply (proj2 IT) in Q. tauto. }
          simpl in H. lia. }
        destruct (tree_add par rank node v (dn ++ queue) IT PV SN X2 Hv IR LL) as (T' & SM & RK).
        destruct (Nat.eqb_spec v t) as [->|D].
        * injection E as <- <- <-. exists (set1 rank t (length (dn ++ queue))).
          split; [intros w W; apply SM; auto|]. split; [|discriminate]. intros _. split; auto. apply SM. auto.
        * apply (IH _ dn _ (set1 rank v (length (dn ++ queue)))) in E; auto.
          -- destruct E as (r' & M & F & G). exists r'. split; [intros w W; apply M, SM; auto|]. split; auto. intro Q.
             specialize (G Q). destruct G as [G1 G2]. split; auto. intros w [<-|W] C; [|apply G2; auto]. apply M, SM. auto.
          -- intros; apply B; simpl; auto.
          -- constructor; auto.
             ++ intro w. rewrite SM, IM, app_assoc, (in_app_iff (dn ++ queue)). simpl. intuition.
             ++ rewrite app_assoc. apply (Permutation_NoDup (Permutation_cons_append (dn ++ queue) v)). constructor; auto.
                intro Q. apply IM in Q. contradiction.
             ++ intros w W. rewrite app_assoc. replace (length ((dn ++ queue) ++ [v])) with (S (length (dn ++ queue))) by (rewrite (app_length (dn ++ queue)); simpl; lia). apply SM in W. destruct W as [W| ->].
                ** rewrite RK by auto. specialize (IR w W). lia.
                ** rewrite set1_eq. lia.
             ++ rewrite set1_neq; auto.
  Qed.

  Lemma bfs_spec fuel : forall par dn queue rank,
    binv par dn queue rank -> (forall u, In u dn -> closed_at par u (a u)) -> n <= fuel + length dn ->
    exists rank', let par' := bfs fuel a c t par queue in tree par' rank' /\
      (par' t = None -> forall u v, seen par' u -> In v (a u) -> (0 < c u v)%Z -> seen par' v).
  Proof.
    induction fuel as [|fuel IH]; intros par dn queue rank I C F; simpl.
    - exists rank. split; [apply I|]. intros _ u v U V P. destruct I as [IT IM IN IR IS].
      assert (length (dn ++ queue) <= n).
      { apply nodup_bound; auto. intros x Q. apply IM in Q. apply (proj2 IT) in Q. tauto. }
      assert (queue = []) by (destruct queue; auto; rewrite app_length in H; simpl in H; lia). subst queue.
      rewrite app_nil_r in *. apply IM in U. eapply C; eauto.
    - destruct queue as [|node queue].
      + exists rank. split; [apply I|]. intros _ u v U V P. apply (b_mem _ _ _ _ I) in U. rewrite app_nil_r in U. eapply C; eauto.
      + destruct (scan c t node (a node) par queue) as [[par' queue'] found] eqn:E.
        assert (I' : binv par (dn ++ [node]) queue rank).
        { destruct I as [IT IM IN IR IS]. constructor; auto; rewrite <- app_assoc; simpl; auto. }
        apply (scan_spec node (a node) par (dn ++ [node]) queue rank) in E; auto; [|intros v; apply Hadj|apply in_or_app; simpl; auto].
        destruct E as (r' & M & FT & FF). destruct found.
        * exists r'. destruct (FT eq_refl) as [A B]. split; auto. intro Q. contradiction.
        * destruct (FF eq_refl) as [A B]. apply (IH _ _ _ _ A); [|rewrite app_length; simpl; lia].
          intros u U. apply in_app_or in U. destruct U as [U|[<-|[]]]; auto.
          intros v V P. apply M. eapply C; eauto.
  Qed.
  Lemma find_path_spec : s <> t -> exists rank, let par := find_path n a c s t in tree par rank /\
      (par t = None -> forall u v, seen par u -> In v (a u) -> (0 < c u v)%Z -> seen par v).
  Proof.
    intro D. unfold find_path. apply (bfs_spec n _ [] _ (fun _ => 0)); [|intros u []|simpl; lia].
    assert (SM : forall v, seen (set1 (fun _ => None) s (Some s)) v <-> v = s).
    { intro v. unfold seen, set1. destruct (Nat.eqb_spec v s); split; try tauto; try discriminate. }
    constructor.
    - split; [apply set1_eq|]. intros v V. apply SM in V. subst. split; auto. split; [lia|auto].
    - intro v. rewrite SM. simpl. intuition.
    - simpl. repeat constructor; auto.
    - intros v _. simpl. lia.
    - now rewrite set1_neq by auto.
  Qed.
End BFS.

(** ** augmentation *)
Section Push.
  Variables (n s : nat) (par : parents) (rank : nat -> nat) (c0 : caps).
  Hypothesis T : tree n c0 s par rank.

  Fixpoint edges (fuel node : nat) : list (nat * nat) :=
    if node =? s then []
    else match fuel, par node with S fuel, Some prev => (prev, node) :: edges fuel prev | _, _ => [] end.
  Definition on (x y : nat) (e : nat * nat) : bool := (fst e =? x) && (snd e =? y).
  Definition cnt (x y : nat) (es : list (nat * nat)) : Z := Z.of_nat (length (filter (on x y) es)).
  Lemma cnt_cons x y u v es : cnt x y ((u, v) :: es) = ((if ((u =? x) && (v =? y))%nat then 1 else 0) + cnt x y es)%Z.
  Proof. unfold cnt, on. cbn [filter fst snd]. destruct ((u =? x) && (v =? y)); cbn [length]; lia. Qed.

  Lemma push_eq fuel : forall c node pf x y,
    push fuel c par s node pf x y = (c x y - pf * cnt x y (edges fuel node) + pf * cnt y x (edges fuel node))%Z.
  Proof.
    induction fuel as [|fuel IH]; intros c node pf x y; simpl.
    - destruct (node =? s); unfold cnt; simpl; lia.
    - destruct (node =? s); [unfold cnt; simpl; lia|]. destruct (par node) as [prev|]; [|unfold cnt; simpl; lia].
      rewrite IH, !cnt_cons. unfold set2.
      generalize (cnt x y (edges fuel prev)) (cnt y x (edges fuel prev)). intros p q.
      rewrite (Nat.eqb_sym prev x), (Nat.eqb_sym node y), (Nat.eqb_sym prev y), (Nat.eqb_sym node x).
      destruct (Nat.eqb_spec x prev), (Nat.eqb_spec y node), (Nat.eqb_spec x node), (Nat.eqb_spec y prev); subst; cbn [andb]; rewrite ?Nat.eqb_refl; cbn [andb]; try congruence; try lia;
        destruct (Nat.eqb_spec node prev), (Nat.eqb_spec prev node); subst; cbn [andb]; try congruence; lia.
  Qed.
  Lemma edges_bound fuel : forall node, seen par node -> rank node <= fuel -> forall u v, In (u, v) (edges fuel node) ->
    (rank v <= rank node) /\ rank u < rank v /\ (0 < c0 u v)%Z /\ u < n /\ v < n.
  Proof.
    induction fuel as [|fuel IH]; intros node S R u v I; simpl in I.
    - destruct (node =? s); destruct I.
    - destruct (Nat.eqb_spec node s) as [E|E]; [destruct I|].
      destruct (proj2 T node S) as (A & B & [D|(p & P & Q & R' & C)]); [tauto|]. rewrite P in I. simpl in I.
      destruct I as [I|I].
      + injection I as <- <-. repeat split; auto. apply (proj2 T p Q).
      + apply IH in I; auto; [|lia]. destruct I as (I1 & I2 & I3). split; [lia|]. auto.
  Qed.
  Lemma edges_once fuel : forall node x y, seen par node -> rank node <= fuel -> (cnt x y (edges fuel node) <= 1)%Z.
  Proof.
    induction fuel as [|fuel IH]; intros node x y S R; simpl.
    - destruct (node =? s); unfold cnt; simpl; lia.
    - destruct (Nat.eqb_spec node s) as [E|E]; [unfold cnt; simpl; lia|].
      destruct (proj2 T node S) as (A & B & [D|(p & P & Q & R' & C)]); [tauto|]. rewrite P. rewrite cnt_cons.
      destruct (Nat.eqb_spec p x), (Nat.eqb_spec node y); cbn [andb]; try (specialize (IH p x y Q ltac:(lia)); lia).
      assert (Z : cnt x y (edges fuel p) = 0%Z); [|lia].
      unfold cnt. destruct (filter (on x y) (edges fuel p)) as [|[u v] l] eqn:F; auto. exfalso.
      assert (In (u, v) (filter (on x y) (edges fuel p))) by (rewrite F; simpl; auto).
      apply filter_In in H. destruct H as [H1 H2]. apply andb_true_iff in H2. simpl in H2. destruct H2 as [H2 H3].
      apply Nat.eqb_eq in H2, H3. apply edges_bound in H1; auto; [|lia]. subst. lia.
  Qed.
  Lemma bottleneck_spec fuel : forall c node pf, seen par node -> rank node <= fuel -> (0 < pf)%Z ->
    (forall u v, In (u, v) (edges fuel node) -> (0 < c u v)%Z) ->
    let b := bottleneck fuel c par s node pf in
    (0 < b <= pf)%Z /\ (forall u v, In (u, v) (edges fuel node) -> (b <= c u v)%Z).
  Proof.
    induction fuel as [|fuel IH]; intros c node pf S R PF C; simpl.
    - destruct (node =? s); split; try lia; intros u v [].
    - simpl in C. destruct (Nat.eqb_spec node s) as [E|E]; [split; [lia|intros u v []]|].
      destruct (proj2 T node S) as (A & B & [D|(p & P & Q & R' & C')]); [tauto|]. rewrite P in *.
      pose proof (C p node (or_introl eq_refl)) as C1.
      destruct (IH c p (Z.min pf (c p node)) Q ltac:(lia) ltac:(lia) (fun u v I => C u v (or_intror I))) as [X Y].
      split; [lia|]. intros u v [I|I]; [injection I as <- <-; lia|auto].
  Qed.
  (** conservation: the net outflow changes only at the two ends *)
  Lemma net_edges fuel : forall node, seen par node -> rank node <= fuel -> forall x,
    nsum n (fun y => cnt x y (edges fuel node) - cnt y x (edges fuel node))%Z
    = ((if (x =? s)%nat then 1 else 0) - (if (x =? node)%nat then 1 else 0))%Z.
  Proof.
    induction fuel as [|fuel IH]; intros node S R x; simpl.
    - destruct (Nat.eqb_spec node s) as [->|E].
      + rewrite nsum_zero; [destruct (x =? s); lia|]. intros; unfold cnt; simpl; lia.
      + destruct (proj2 T node S) as (A & B & [D|(p & P & Q & R' & C)]); [tauto|lia].
    - destruct (Nat.eqb_spec node s) as [->|E].
      + rewrite nsum_zero; [destruct (x =? s); lia|]. intros; unfold cnt; simpl; lia.
      + destruct (proj2 T node S) as (A & B & [D|(p & P & Q & R' & C)]); [tauto|]. rewrite P.
        pose proof (proj2 T p Q) as (Ap & _).
        transitivity (nsum n (fun y => ((if (y =? node)%nat then if (p =? x)%nat then 1 else 0 else 0) - (if (y =? p)%nat then if (node =? x)%nat then 1 else 0 else 0))
                                      + (cnt x y (edges fuel p) - cnt y x (edges fuel p)))%Z).
        * apply nsum_ext. intros y _. rewrite !cnt_cons.
          destruct (Nat.eqb_spec p x), (Nat.eqb_spec node y), (Nat.eqb_spec p y), (Nat.eqb_spec node x), (Nat.eqb_spec y node), (Nat.eqb_spec y p); subst; cbn [andb]; try congruence; try lia.
        * rewrite nsum_add, nsum_sub, !nsum_ind, (IH p Q ltac:(lia)).
          destruct (Nat.ltb_spec node n); [|lia]. destruct (Nat.ltb_spec p n); [|lia].
          rewrite (Nat.eqb_sym p x), (Nat.eqb_sym node x).
          destruct (x =? p), (x =? node), (x =? s); lia.
  Qed.
End Push.

(** ** max flow *)
Section MaxFlow.
  Variables (n s t : nat) (a : adj) (c0 : caps) (imax : Z).
  Hypothesis Hs : s < n.
  Hypothesis Ht : t < n.
  Hypothesis Hst : s <> t.
  Hypothesis Hadj : forall u v, In v (a u) -> v < n.
  Hypothesis Hc0 : forall u v, (0 <= c0 u v)%Z.
  Hypothesis Hedge : forall u v, (c0 u v <> 0)%Z -> In v (a u) /\ In u (a v).
  Hypothesis Himax : (0 < imax)%Z.

  Record finv (c : caps) (flow : Z) : Prop := {
    f_skew : forall u v, (c u v + c v u = c0 u v + c0 v u)%Z;
    f_nn : forall u v, (0 <= c u v)%Z;
    f_cons : forall u, u < n -> u <> s -> u <> t -> nsum n (fun v => c0 u v - c u v)%Z = 0%Z;
    f_val : nsum n (fun v => c0 s v - c s v)%Z = flow }.
  Lemma finv_flow c flow : finv c flow -> flow_in n c0 s t (fun u v => c0 u v - c u v)%Z.
  Proof.
    intros [A B C D]. repeat split; auto.
    - intros u v. specialize (A u v). lia.
    - intros u v. specialize (B u v). lia.
  Qed.
  Lemma finv_adj c flow u v : finv c flow -> (0 < c u v)%Z -> In v (a u).
  Proof.
    intros I P. pose proof (f_skew _ _ I u v). pose proof (f_nn _ _ I v u). pose proof (Hc0 u v). pose proof (Hc0 v u).
    destruct (Z.eq_dec (c0 u v) 0) as [E|E]; [|apply (Hedge u v); auto]. apply (proj2 (Hedge v u ltac:(lia))).
  Qed.
  Lemma finv_init : finv c0 0.
  Proof.
    constructor; auto.
    - intros. apply nsum_zero. intros. lia.
    - apply nsum_zero. intros. lia.
  Qed.
  Definition K : Z := nsum n (fun u => c0 u t).
  Lemma finv_bound c flow : finv c flow -> (flow <= K)%Z.
  Proof.
    intro I. pose proof (finv_flow c flow I) as F. rewrite <- (f_val _ _ I).
    rewrite (cut_value n c0 s t Hs _ (fun u => negb (u =? t)) F).
    - unfold cut, K. apply nsum_le. intros u Hu. destruct (Nat.eqb_spec u t) as [->|D]; simpl; [apply Hc0|].
      transitivity (nsum n (fun v => if v =? t then (c0 u t - c u t)%Z else 0%Z)).
      + apply Z.eq_le_incl. apply nsum_ext. intros v Hv. destruct (Nat.eqb_spec v t) as [->|]; auto.
      + rewrite nsum_ind. destruct (Nat.ltb_spec t n); [|lia]. pose proof (f_nn _ _ I u t). lia.
    - destruct (Nat.eqb_spec s t); auto; tauto.
    - rewrite Nat.eqb_refl. auto.
  Qed.
  Lemma finv_push c flow : finv c flow -> let par := find_path n a c s t in par t <> None ->
    let pf := bottleneck n c par s t imax in
    (0 < pf)%Z /\ finv (push n c par s t pf) (flow + pf).
  Proof.
    intros I par P. destruct (find_path_spec n a c s t Hs Hadj Hst) as (rank & T & _). fold par in T.
    assert (R : rank t <= n) by (pose proof (proj2 T t P); lia).
    destruct (bottleneck_spec n s par rank c T n c t imax P R Himax) as [[B1 B2] B3].
    { intros u v E. apply (edges_bound n s par rank c T n t P R) in E. tauto. }
    intro pf. fold pf in B1, B2, B3. split; auto.
    assert (PE : forall x y, push n c par s t pf x y = (c x y - pf * cnt x y (edges s par n t) + pf * cnt y x (edges s par n t))%Z).
    { intros. apply push_eq. }
    assert (NET : forall x, nsum n (fun y => c0 x y - push n c par s t pf x y)%Z =
        (nsum n (fun y => c0 x y - c x y)%Z + pf * ((if (x =? s)%nat then 1 else 0) - (if (x =? t)%nat then 1 else 0)))%Z).
    { intro x. rewrite <- (net_edges n s par rank c T n t P R x), <- nsum_mul, <- nsum_add.
      apply nsum_ext. intros y _. rewrite PE. lia. }
    constructor.
    - intros u v. rewrite !PE. pose proof (f_skew _ _ I u v). lia.
    - intros u v. rewrite PE. pose proof (f_nn _ _ I u v).
      assert (0 <= cnt v u (edges s par n t))%Z by (unfold cnt; lia).
      pose proof (edges_once n s par rank c T n t u v P R) as E1.
      destruct (Z.eq_dec (cnt u v (edges s par n t)) 1) as [E|E].
      + assert (IN : In (u, v) (edges s par n t)).
        { unfold cnt in E. destruct (filter (on u v) (edges s par n t)) as [|[x y] l] eqn:F; [simpl in E; lia|].
          assert (In (x, y) (filter (on u v) (edges s par n t))) by (rewrite F; simpl; auto). apply filter_In in H1.
          destruct H1 as [H1 H2]. apply andb_true_iff in H2. simpl in H2. destruct H2 as [H2 H3]. apply Nat.eqb_eq in H2, H3. now subst. }
        apply B3 in IN. rewrite E. nia.
      + assert (cnt u v (edges s par n t) = 0%Z) by (unfold cnt in *; lia). rewrite H1. nia.
    - intros u Hu Us Ut. rewrite NET, (f_cons _ _ I u Hu Us Ut).
      destruct (Nat.eqb_spec u s); [tauto|]. destruct (Nat.eqb_spec u t); [tauto|]. lia.
    - rewrite NET, (f_val _ _ I), Nat.eqb_refl. destruct (Nat.eqb_spec s t); [tauto|]. lia.
  Qed.
  Lemma max_flow_spec fuel : forall c flow, finv c flow -> (K - flow < Z.of_nat fuel)%Z ->
    exists flow' c', max_flow fuel n imax a c s t flow = Some (flow', c') /\ finv c' flow' /\
      exists S0, S0 s = true /\ S0 t = false /\ forall u v, S0 u = true -> S0 v = false -> c' u v = 0%Z.
  Proof.
    induction fuel as [|fuel IH]; intros c flow I F; simpl.
    - pose proof (finv_bound c flow I). lia.
    - destruct (find_path_spec n a c s t Hs Hadj Hst) as (rank & T & CL).
      destruct (find_path n a c s t t) as [p|] eqn:P.
      + destruct (finv_push c flow I) as [A B]; [congruence|]. apply IH in B; [|lia]. exact B.
      + exists flow, c. split; auto. split; auto. exists (fun v => match find_path n a c s t v with Some _ => true | None => false end).
        split; [destruct T as [-> _]; auto|]. split; [now rewrite P|]. intros u v U V.
        pose proof (f_nn _ _ I u v). destruct (Z.eq_dec (c u v) 0) as [|D]; auto. exfalso.
        assert (SU : seen (find_path n a c s t) u) by (unfold seen; destruct (find_path n a c s t u); discriminate).
        assert (SV : seen (find_path n a c s t) v).
        { apply (CL eq_refl u); auto; [|lia]. eapply finv_adj; eauto. lia. }
        unfold seen in SV. destruct (find_path n a c s t v); [discriminate|tauto].
  Qed.
  (** the result is a maximum flow *)
  Lemma max_flow_max c' flow' g : finv c' flow' ->
    (exists S0, S0 s = true /\ S0 t = false /\ forall u v, S0 u = true -> S0 v = false -> c' u v = 0%Z) ->
    flow_in n c0 s t g -> (nsum n (g s) <= flow')%Z.
  Proof.
    intros I (S0 & A & B & C) G. rewrite <- (f_val _ _ I).
    rewrite (cut_value n c0 s t Hs _ S0 (finv_flow _ _ I) A B), (cut_value n c0 s t Hs g S0 G A B).
    apply (cut_le n s Hs). intros u v _ _ U V. rewrite (C u v U V). destruct G as (_ & G & _). specialize (G u v). lia.
  Qed.
End MaxFlow.

(** ** the network built by the code *)
Lemma fold_edges_cap {I} (l : list I) (su tu : I -> nat) (k : I -> Z) g u v :
  snd (fold_left (fun g i => add_edge g (su i) (tu i) (k i)) l g) u v =
  (snd g u v + fold_right Z.add 0 (map (fun i => if ((su i =? u) && (tu i =? v))%nat then k i else 0) l))%Z.
Proof.
  revert g. induction l as [|i l IH]; intro g; simpl; [lia|]. rewrite IH. unfold add_edge.
  destruct (Z.eqb_spec (k i) 0) as [E|E].
  - rewrite E. destruct ((su i =? u) && (tu i =? v)); lia.
  - destruct g as [a c]. simpl. unfold set2. rewrite (Nat.eqb_sym u), (Nat.eqb_sym v).
    destruct (Nat.eqb_spec (su i) u), (Nat.eqb_spec (tu i) v); subst; simpl; lia.
Qed.
(** edges present before stay, and every nonzero edge is in both adjacency lists *)
Lemma set1_in_keep (a : adj) x y u v : In v (a u) -> In v (set1 a x (a x ++ [y]) u).
Proof. intro H. unfold set1. destruct (Nat.eqb_spec u x) as [->|]; auto. apply in_or_app. auto. Qed.
Lemma add_edge_keep g s t k u v : In v (fst g u) -> In v (fst (add_edge g s t k) u).
Proof.
  intro H. unfold add_edge. destruct (k =? 0)%Z; auto. destruct g as [a c]. simpl in *.
  now apply set1_in_keep, set1_in_keep.
Qed.
Lemma add_edge_new g s t k : k <> 0%Z -> In t (fst (add_edge g s t k) s) /\ In s (fst (add_edge g s t k) t).
Proof.
  intro H. unfold add_edge. destruct (Z.eqb_spec k 0); [tauto|]. destruct g as [a c]. simpl. split.
  - apply set1_in_keep. rewrite set1_eq. apply in_or_app. simpl. auto.
  - rewrite set1_eq. apply in_or_app. simpl. auto.
Qed.
Lemma add_edge_range n g s t k u v : s < n -> t < n -> (forall u v, In v (fst g u) -> v < n) -> In v (fst (add_edge g s t k) u) -> v < n.
Proof.
  intros Hs Ht H. unfold add_edge. destruct (k =? 0)%Z; [apply H|]. destruct g as [a c]. simpl in *.
  unfold set1 at 1. destruct (Nat.eqb_spec u t) as [->|D].
  - rewrite in_app_iff. intros [I|[<-|[]]]; auto. unfold set1 in I. destruct (t =? s); [|eapply H; eauto].
    apply in_app_or in I. destruct I as [I|[<-|[]]]; [|auto]. eapply H; eauto.
  - unfold set1. destruct (u =? s); [|eapply H; eauto]. rewrite in_app_iff. intros [I|[<-|[]]]; auto. eapply H; eauto.
Qed.
Lemma fold_edges_keep {I} (l : list I) (f : adj * caps -> I -> adj * caps) :
  (forall g i u v, In v (fst g u) -> In v (fst (f g i) u)) -> forall g u v, In v (fst g u) -> In v (fst (fold_left f l g) u).
Proof. intro H. induction l; simpl; auto. Qed.
Lemma fold_edges_new {I} (l : list I) (f : adj * caps -> I -> adj * caps) i u v :
  (forall g i u v, In v (fst g u) -> In v (fst (f g i) u)) -> In i l -> (forall g, In v (fst (f g i) u)) ->
  forall g, In v (fst (fold_left f l g) u).
Proof.
  intros K M N. induction l as [|j l IH]; simpl; intro g; [destruct M|].
  destruct M as [->|M]; auto. apply fold_edges_keep; auto.
Qed.
Lemma fold_edges_range {I} n (l : list I) (f : adj * caps -> I -> adj * caps) :
  (forall g i, In i l -> (forall u v, In v (fst g u) -> v < n) -> forall u v, In v (fst (f g i) u) -> v < n) ->
  forall g, (forall u v, In v (fst g u) -> v < n) -> forall u v, In v (fst (fold_left f l g) u) -> v < n.
Proof.
  induction l as [|i l IH]; simpl; intros H g G; auto. apply IH; [intros; eapply H; eauto|]. apply H; auto.
Qed.
Lemma fold_flat {I J} (ls : list I) (lp : list J) (P : I -> J -> bool) (f : adj * caps -> I * J -> adj * caps) g :
  fold_left (fun g i => fold_left (fun g p => if P i p then f g (i, p) else g) lp g) ls g =
  fold_left f (flat_map (fun i => map (fun p => (i, p)) (filter (P i) lp)) ls) g.
Proof.
  revert g. induction ls as [|i ls IH]; intro g; simpl; auto. rewrite fold_left_app, IH. f_equal. clear.
  revert g. induction lp as [|p lp IH]; intro g; simpl; auto. destruct (P i p); simpl; auto.
Qed.

Section Graph.
  Variables (sizes : list nat) (allowed : nat -> nat -> bool) (pcounts : list nat).
  Let nl := length sizes.
  Let np := length pcounts.
  Let po := 1 + nl.
  Let sink := po + np.
  Let total := list_sum pcounts.
  (** the intended capacities *)
  Definition cspec (u v : nat) : Z :=
    if u =? 0 then if (1 <=? v) && (v <=? nl) then Z.of_nat (nth (v - 1) sizes 0) else 0%Z
    else if u <=? nl then if (po <=? v) && (v <? sink) && allowed (u - 1) (v - po) then Z.of_nat total else 0%Z
    else if u <? sink then if v =? sink then Z.of_nat (nth (u - po) pcounts 0) else 0%Z
    else 0%Z.
  Let g := flow_graph sizes allowed pcounts.

  Lemma sum_ind_list {I} (l : list I) (f : I -> Z) (q : I -> bool) :
    (forall i, In i l -> q i = false) -> fold_right Z.add 0%Z (map (fun i => if q i then f i else 0%Z) l) = 0%Z.
  Proof. induction l; simpl; intro H; auto. rewrite (H a), IHl; auto. Qed.
  Lemma sum_ind_one k (f : nat -> Z) (q : nat -> bool) j : j < k -> (forall i, i < k -> q i = (i =? j)) ->
    fold_right Z.add 0%Z (map (fun i => if q i then f i else 0%Z) (seq 0 k)) = f j.
  Proof.
    intros H Q. change (nsum k (fun i => if q i then f i else 0%Z) = f j).
    rewrite (nsum_ext _ _ (fun i => if i =? j then f j else 0%Z)).
    - rewrite nsum_ind. destruct (Nat.ltb_spec j k); [auto|lia].
    - intros i Hi. rewrite Q by auto. destruct (Nat.eqb_spec i j); subst; auto.
  Qed.
  Lemma sum_ind_pair k m (P : nat -> nat -> bool) (x : Z) (q : nat * nat -> bool) j h : j < k -> h < m -> P j h = true ->
    (forall i p, i < k -> p < m -> q (i, p) = ((i =? j) && (p =? h))) ->
    fold_right Z.add 0%Z (map (fun ip => if q ip then x else 0%Z) (flat_map (fun i => map (fun p => (i, p)) (filter (P i) (seq 0 m))) (seq 0 k))) = x.
  Proof.
    intros Hj Hh HP Q.
    assert (APP : forall a b, fold_right Z.add 0%Z (a ++ b) = (fold_right Z.add 0 a + fold_right Z.add 0 b)%Z) by (induction a; simpl; intros; [auto|rewrite IHa; lia]).
    assert (ROW : forall i l, fold_right Z.add 0%Z (map (fun ip => if q ip then x else 0%Z) (map (fun p => (i, p)) (filter (P i) l))) =
                         fold_right Z.add 0%Z (map (fun p => if q (i, p) && P i p then x else 0%Z) l)).
    { intros i. induction l as [|p l IH]; simpl; auto. destruct (P i p); simpl; rewrite IH; [rewrite andb_true_r|rewrite andb_false_r]; auto. }
    assert (FM : forall l, fold_right Z.add 0%Z (map (fun ip => if q ip then x else 0%Z) (flat_map (fun i => map (fun p => (i, p)) (filter (P i) (seq 0 m))) l)) =
        fold_right Z.add 0%Z (map (fun i => fold_right Z.add 0%Z (map (fun p => if q (i, p) && P i p then x else 0%Z) (seq 0 m))) l)).
    { induction l as [|i l IH]; simpl; auto. rewrite map_app, APP, IH, ROW. auto. }
    rewrite FM. change (nsum k (fun i => nsum m (fun p => if q (i, p) && P i p then x else 0%Z)) = x).
    rewrite (nsum_ext _ _ (fun i => if i =? j then x else 0%Z)).
    - rewrite nsum_ind. destruct (Nat.ltb_spec j k); [auto|lia].
    - intros i Hi. destruct (Nat.eqb_spec i j) as [->|D].
      + rewrite (nsum_ext _ _ (fun p => if p =? h then x else 0%Z)).
        * rewrite nsum_ind. destruct (Nat.ltb_spec h m); [auto|lia].
        * intros p Hp. rewrite Q by auto. rewrite Nat.eqb_refl. simpl. destruct (Nat.eqb_spec p h) as [->|]; auto. now rewrite HP.
      + apply nsum_zero. intros p Hp. rewrite Q by auto. destruct (Nat.eqb_spec i j); [tauto|]. reflexivity.
  Qed.

  Let E2 := flat_map (fun i => map (fun p => (i, p)) (filter (allowed i) (seq 0 np))) (seq 0 nl).
  Lemma E2_in i p : In (i, p) E2 <-> i < nl /\ p < np /\ allowed i p = true.
  Proof.
    unfold E2. rewrite in_flat_map. split.
    - intros (j & J & I). apply in_map_iff in I. destruct I as (q & Q & I). injection Q as -> ->.
      apply filter_In in I. rewrite in_seq in *. intuition lia.
    - intros (A & B & C). exists i. rewrite in_seq. split; [lia|]. apply in_map_iff. exists p. split; auto. apply filter_In.
      rewrite in_seq. split; auto; lia.
  Qed.
  Lemma flow_graph_eq : g =
    fold_left (fun g p => add_edge g (po + p) sink (Z.of_nat (nth p pcounts 0))) (seq 0 np)
      (fold_left (fun g ip => add_edge g (1 + fst ip) (po + snd ip) (Z.of_nat total)) E2
        (fold_left (fun g i => add_edge g 0 (1 + i) (Z.of_nat (nth i sizes 0))) (seq 0 nl) (fun _ => [], fun _ _ => 0%Z))).
  Proof.
    unfold g, flow_graph. fold nl np. fold po. fold sink. fold total. f_equal.
    apply (fold_flat (seq 0 nl) (seq 0 np) allowed (fun g ip => add_edge g (1 + fst ip) (po + snd ip) (Z.of_nat total))).
  Qed.
  Lemma graph_caps u v : snd g u v = cspec u v.
  Proof.
    rewrite flow_graph_eq. rewrite (fold_edges_cap _ (fun p => po + p) (fun _ => sink)).
    rewrite (fold_edges_cap _ (fun ip => 1 + fst ip) (fun ip => po + snd ip)).
    rewrite (fold_edges_cap _ (fun _ => 0) (fun i => 1 + i)). unfold snd at 1. cbv beta iota. rewrite Z.add_0_l.
    assert (I2 : forall q : nat * nat -> bool, (forall i p, i < nl -> p < np -> q (i, p) = false) -> forall ip, In ip E2 -> q ip = false).
    { intros q H [i p] I. apply E2_in in I. apply H; tauto. }
    assert (I1 : forall k (q : nat -> bool), (forall i, i < k -> q i = false) -> forall i, In i (seq 0 k) -> q i = false).
    { intros k q H i I. apply in_seq in I. apply H. lia. }
    unfold cspec. destruct (Nat.eqb_spec u 0) as [->|U].
    - rewrite (sum_ind_list E2), (sum_ind_list (seq 0 np)).
      + destruct (Nat.leb_spec 1 v), (Nat.leb_spec v nl); cbn [andb].
        * rewrite (sum_ind_one nl _ _ (v - 1)); [lia|lia|]. intros i Hi. destruct (Nat.eqb_spec (1 + i) v), (Nat.eqb_spec i (v - 1)); simpl; auto; lia.
        * rewrite sum_ind_list; [lia|]. apply I1. intros i Hi. destruct (Nat.eqb_spec (1 + i) v); auto; lia.
        * rewrite sum_ind_list; [lia|]. apply I1. intros i Hi. destruct (Nat.eqb_spec (1 + i) v); auto; lia.
        * rewrite sum_ind_list; [lia|]. apply I1. intros i Hi. destruct (Nat.eqb_spec (1 + i) v); auto; lia.
      + apply I1. intros p Hp. unfold po. reflexivity.
      + apply I2. intros i p Hi Hp. reflexivity.
    - rewrite (sum_ind_list (seq 0 nl)); [|apply I1; intros i Hi; destruct (Nat.eqb_spec 0 u); auto; lia].
      destruct (Nat.leb_spec u nl) as [U2|U2].
      + rewrite (sum_ind_list (seq 0 np)); [|apply I1; intros p Hp; unfold po; destruct (Nat.eqb_spec (1 + nl + p) u); auto; lia].
        destruct (Nat.leb_spec po v) as [V|V], (Nat.ltb_spec v sink) as [V2|V2]; cbn [andb].
        * destruct (allowed (u - 1) (v - po)) eqn:AL.
          -- unfold E2. rewrite (sum_ind_pair nl np allowed _ _ (u - 1) (v - po)); auto; try lia.
             intros i p Hi Hp. cbn [fst snd]. 
                destruct (Nat.eqb_spec (1 + i) u), (Nat.eqb_spec i (u - 1)), (Nat.eqb_spec (po + p) v), (Nat.eqb_spec p (v - po)); simpl; auto; lia.
          -- rewrite sum_ind_list; [lia|]. intros [i p] I. apply E2_in in I. cbn [fst snd].
             destruct (Nat.eqb_spec (1 + i) u), (Nat.eqb_spec (po + p) v); auto. exfalso.
             replace (u - 1) with i in AL by lia. replace (v - po) with p in AL by lia. intuition congruence.
        * rewrite sum_ind_list; [lia|]. apply I2. intros i p Hi Hp. cbn [fst snd]. destruct (Nat.eqb_spec (po + p) v); [unfold sink in *; lia|]. apply andb_false_r.
        * rewrite sum_ind_list; [lia|]. apply I2. intros i p Hi Hp. cbn [fst snd]. destruct (Nat.eqb_spec (po + p) v); [lia|]. apply andb_false_r.
        * rewrite sum_ind_list; [lia|]. apply I2. intros i p Hi Hp. cbn [fst snd]. destruct (Nat.eqb_spec (po + p) v); [lia|]. apply andb_false_r.
      + rewrite (sum_ind_list E2); [|apply I2; intros i p Hi Hp; cbn [fst]; destruct (Nat.eqb_spec (1 + i) u); auto; lia].
        destruct (Nat.ltb_spec u sink) as [U3|U3].
        * destruct (Nat.eqb_spec v sink) as [->|V].
          -- rewrite (sum_ind_one np _ _ (u - po)); [lia|unfold sink, po in *; lia|].
             intros p Hp. rewrite Nat.eqb_refl, andb_true_r. unfold po in *. destruct (Nat.eqb_spec (1 + nl + p) u), (Nat.eqb_spec p (u - (1 + nl))); auto; lia.
          -- rewrite sum_ind_list; [lia|]. apply I1. intros p Hp. destruct (Nat.eqb_spec sink v); [lia|]. apply andb_false_r.
        * rewrite sum_ind_list; [lia|]. apply I1. intros p Hp. destruct (Nat.eqb_spec (po + p) u); auto. unfold sink in *. lia.
  Qed.
  Lemma graph_edge u v : snd g u v <> 0%Z -> In v (fst g u) /\ In u (fst g v).
  Proof.
    rewrite graph_caps. intro H.
    assert (K1 : forall l k (g : adj * caps) u v, In v (fst g u) -> In v (fst (fold_left (fun g p => add_edge g (po + p) sink (k p)) l g) u)).
    { intros l k. apply fold_edges_keep. intros. now apply add_edge_keep. }
    assert (K2 : forall (g : adj * caps) u v, In v (fst g u) -> In v (fst (fold_left (fun g ip => add_edge g (1 + fst ip) (po + snd ip) (Z.of_nat total)) E2 g) u)).
    { apply fold_edges_keep. intros. now apply add_edge_keep. }
    rewrite flow_graph_eq. unfold cspec in H.
    destruct (Nat.eqb_spec u 0) as [->|U].
    - destruct (Nat.leb_spec 1 v), (Nat.leb_spec v nl); cbn [andb] in H; try tauto.
      split; apply K1, K2; (eapply (fold_edges_new _ _ (v - 1)); [intros; now apply add_edge_keep|apply in_seq; lia|]); intro g0;
        replace (1 + (v - 1)) with v by lia; now apply add_edge_new.
    - destruct (Nat.leb_spec u nl) as [U2|U2].
      + destruct (Nat.leb_spec po v) as [V|V], (Nat.ltb_spec v sink) as [V2|V2]; cbn [andb] in H; try tauto.
        destruct (allowed (u - 1) (v - po)) eqn:AL; [|tauto].
        split; apply K1; (eapply (fold_edges_new _ _ (u - 1, v - po)); [intros; now apply add_edge_keep|apply E2_in; unfold sink in *; repeat split; auto; lia|]); intro g0; cbn [fst snd];
        replace (1 + (u - 1)) with u by lia; replace (po + (v - po)) with v by lia; now apply add_edge_new.
      + destruct (Nat.ltb_spec u sink) as [U3|U3]; [|tauto]. destruct (Nat.eqb_spec v sink) as [EV|V]; [|tauto]. rewrite EV.
        split; (eapply (fold_edges_new _ _ (u - po)); [intros; now apply add_edge_keep|apply in_seq; unfold sink, po in *; lia|]); intro g0;
        (replace (po + (u - po)) with u by (unfold po in *; lia)); now apply add_edge_new.
  Qed.
  Lemma graph_range u v : In v (fst g u) -> v < S sink.
  Proof.
    rewrite flow_graph_eq. revert u v. apply fold_edges_range.
    - intros g0 p I G u v. apply in_seq in I. apply add_edge_range; auto; unfold sink; lia.
    - apply fold_edges_range.
      + intros g0 [i p] I G u v. apply E2_in in I. cbn [fst snd]. apply add_edge_range; auto; unfold sink, po; lia.
      + apply fold_edges_range.
        * intros g0 i I G u v. apply in_seq in I. apply add_edge_range; auto; unfold sink, po; lia.
        * simpl. tauto.
  Qed.
  Lemma cspec_nonneg u v : (0 <= cspec u v)%Z.
  Proof.
    unfold cspec. destruct (u =? 0); [destruct (_ && _); lia|]. destruct (u <=? nl); [destruct (_ && _); lia|].
    destruct (u <? sink); [destruct (v =? sink); lia|lia].
  Qed.
  Lemma nodes_sum f : nsum (S sink) f = (f 0%nat + nsum nl (fun i => f (1 + i)%nat) + nsum np (fun p => f (po + p)%nat) + f sink)%Z.
  Proof.
    rewrite nsum_S. unfold sink, po. rewrite (nsum_split (1 + nl) np). change (1 + nl) with (S nl) at 1. rewrite nsum_shift. reflexivity.
  Qed.
  (** capacities by kind of node *)
  Lemma cs_src i : i < nl -> cspec 0 (1 + i) = Z.of_nat (nth i sizes 0).
  Proof.
    intro H. unfold cspec. destruct (Nat.eqb_spec 0 0); [|lia]. destruct (Nat.leb_spec 1 (1 + i)); [|lia].
    destruct (Nat.leb_spec (1 + i) nl); [|lia]. cbn [andb]. now replace (1 + i - 1) with i by lia.
  Qed.
  Lemma cs_mid i p : i < nl -> p < np -> cspec (1 + i) (po + p) = if allowed i p then Z.of_nat total else 0%Z.
  Proof.
    intros H K. unfold cspec. destruct (Nat.eqb_spec (1 + i) 0); [lia|]. destruct (Nat.leb_spec (1 + i) nl); [|lia].
    destruct (Nat.leb_spec po (po + p)); [|lia]. destruct (Nat.ltb_spec (po + p) sink); [|unfold sink in *; lia]. cbn [andb].
    replace (1 + i - 1) with i by lia. now replace (po + p - po) with p by lia.
  Qed.
  Lemma cs_snk p : p < np -> cspec (po + p) sink = Z.of_nat (nth p pcounts 0).
  Proof.
    intro H. unfold cspec. destruct (Nat.eqb_spec (po + p) 0); [unfold po in *; lia|]. destruct (Nat.leb_spec (po + p) nl); [unfold po in *; lia|].
    destruct (Nat.ltb_spec (po + p) sink); [|unfold sink in *; lia]. rewrite Nat.eqb_refl. now replace (po + p - po) with p by lia.
  Qed.
  Ltac bash := unfold cspec, sink, po in *;
    repeat match goal with
    | |- context [Nat.eqb ?a ?b] => destruct (Nat.eqb_spec a b); try lia
    | |- context [Nat.leb ?a ?b] => destruct (Nat.leb_spec a b); try lia
    | |- context [Nat.ltb ?a ?b] => destruct (Nat.ltb_spec a b); try lia
    end; cbn [andb]; try reflexivity; try lia.
  (** pairs without an edge in either direction *)
  Definition noedge u v := cspec u v = 0%Z /\ cspec v u = 0%Z.
  Lemma ne_src_p p : p < np -> noedge 0 (po + p).
  Proof. intro. split; bash. Qed.
  Lemma ne_src_src : noedge 0 0.
  Proof. split; bash. Qed.
  Lemma ne_src_snk : noedge 0 sink.
  Proof. split; bash. Qed.
  Lemma ne_lab_lab i j : i < nl -> j < nl -> noedge (1 + i) (1 + j).
  Proof. intros. split; bash. Qed.
  Lemma ne_lab_snk i : i < nl -> noedge (1 + i) sink.
  Proof. intros. split; bash. Qed.
  Lemma ne_p_p p q : p < np -> q < np -> noedge (po + p) (po + q).
  Proof. intros. split; bash. Qed.
  Lemma ne_snk_snk : noedge sink sink.
  Proof. split; bash. Qed.
  Lemma back_src i : i < nl -> cspec (1 + i) 0 = 0%Z.
  Proof. intros. bash. Qed.
  Lemma back_mid i p : i < nl -> p < np -> cspec (po + p) (1 + i) = 0%Z.
  Proof. intros. bash. Qed.
  Lemma back_snk p : p < np -> cspec sink (po + p) = 0%Z.
  Proof. intros. bash. Qed.

  (** any flow in this network restricted to the edges *)
  Section AnyFlow.
    Variable f : nat -> nat -> Z.
    Hypothesis F : flow_in (S sink) cspec 0 sink f.
    Lemma f_none u v : noedge u v -> f u v = 0%Z.
    Proof. intros [A B]. destruct F as (SK & CP & _). pose proof (CP u v). pose proof (CP v u). pose proof (SK u v). lia. Qed.
    Lemma f_mid_nn i p : i < nl -> p < np -> (0 <= f (1 + i)%nat (po + p)%nat)%Z.
    Proof. intros H K. destruct F as (SK & CP & _). pose proof (CP (po + p) (1 + i)). rewrite back_mid in H0 by auto. rewrite SK in H0. lia. Qed.
    Lemma label_balance i : i < nl -> nsum np (fun p => f (1 + i)%nat (po + p)%nat) = f 0%nat (1 + i)%nat.
    Proof.
      intro H. destruct F as (SK & CP & CO). pose proof (CO (1 + i) ltac:(unfold sink, po; lia) ltac:(lia) ltac:(unfold sink, po; lia)) as C.
      rewrite nodes_sum in C. rewrite (nsum_zero nl) in C; [|intros j J; apply f_none, ne_lab_lab; auto].
      rewrite (f_none (1 + i) sink) in C by now apply ne_lab_snk. pose proof (SK 0 (1 + i)). lia.
    Qed.
    Lemma part_balance p : p < np -> nsum nl (fun i => f (1 + i)%nat (po + p)%nat) = f (po + p)%nat sink.
    Proof.
      intro H. destruct F as (SK & CP & CO). pose proof (CO (po + p) ltac:(unfold sink; lia) ltac:(unfold po; lia) ltac:(unfold sink; lia)) as C.
      rewrite nodes_sum in C. rewrite (nsum_zero np) in C; [|intros q Q; apply f_none, ne_p_p; auto].
      assert (Z0 : f (po + p) 0 = 0%Z) by (rewrite SK, (f_none 0 (po + p)) by (now apply ne_src_p); auto). rewrite Z0 in C.
      rewrite (nsum_ext nl (fun i => f (1 + i) (po + p)) (fun i => - f (po + p) (1 + i))%Z); [|intros i Hi; now rewrite SK].
      rewrite nsum_opp. lia.
    Qed.
    Lemma value_src : nsum (S sink) (f 0) = nsum nl (fun i => f 0%nat (1 + i)%nat).
    Proof.
      rewrite nodes_sum. rewrite (f_none 0 0) by apply ne_src_src. rewrite (f_none 0 sink) by apply ne_src_snk.
      rewrite (nsum_zero np); [lia|]. intros p P. apply f_none. now apply ne_src_p.
    Qed.
    Lemma value_snk : nsum (S sink) (f 0) = nsum np (fun p => f (po + p)%nat sink).
    Proof.
      rewrite value_src. rewrite (nsum_ext nl _ (fun i => nsum np (fun p => f (1 + i)%nat (po + p)%nat))) by (intros; now rewrite label_balance).
      rewrite nsum_swap. apply nsum_ext. intros p P. now apply part_balance.
    Qed.
  End AnyFlow.

  (** assignments as flows *)
  Definition hspec (al : list (list nat)) (u v : nat) : Z :=
    if u =? 0 then if (1 <=? v) && (v <=? nl) then Z.of_nat (list_sum (nth (v - 1) al [])) else 0%Z
    else if u <=? nl then if (po <=? v) && (v <? sink) then Z.of_nat (nth (v - po) (nth (u - 1) al []) 0) else 0%Z
    else if u <? sink then if v =? sink then Z.of_nat (nth (u - po) pcounts 0) else 0%Z
    else 0%Z.
  Definition gflow al u v : Z := (hspec al u v - hspec al v u)%Z.
  Lemma hspec_le al u v : feasible sizes allowed pcounts al -> (0 <= hspec al u v <= cspec u v)%Z.
  Proof.
    intros (A & B & C & D & E). fold nl in A, B, C, D. fold np in B, C, E. unfold hspec, cspec.
    destruct (Nat.eqb_spec u 0); [|destruct (Nat.leb_spec u nl)].
    - destruct (Nat.leb_spec 1 v), (Nat.leb_spec v nl); cbn [andb]; try lia. specialize (D (v - 1) ltac:(lia)). lia.
    - destruct (Nat.leb_spec po v), (Nat.ltb_spec v sink); cbn [andb]; try lia. destruct (allowed (u - 1) (v - po)) eqn:AL.
      + specialize (E (v - po) ltac:(unfold sink in *; lia)).
        assert (nth (v - po) (nth (u - 1) al []) 0 <= nth (v - po) pcounts 0).
        { rewrite <- E. assert (HL : u - 1 < length al) by lia. clear -HL. revert HL. generalize (u - 1), (v - po). clear. intros k w. revert k.
          induction al as [|r al IH]; intros k H; simpl in *; [lia|]. destruct k; simpl; [lia|]. specialize (IH k ltac:(lia)). lia. }
        pose proof (nth_le_sum pcounts (v - po)). fold total in H2. lia.
      + rewrite C; auto; unfold sink in *; lia.
    - destruct (u <? sink); [|lia]. destruct (v =? sink); lia.
  Qed.
  Lemma hs_src al i : i < nl -> hspec al 0 (1 + i) = Z.of_nat (list_sum (nth i al [])).
  Proof.
    intro H. unfold hspec. destruct (Nat.eqb_spec 0 0); [|lia]. destruct (Nat.leb_spec 1 (1 + i)); [|lia].
    destruct (Nat.leb_spec (1 + i) nl); [|lia]. cbn [andb]. now replace (1 + i - 1) with i by lia.
  Qed.
  Lemma hs_mid al i p : i < nl -> p < np -> hspec al (1 + i) (po + p) = Z.of_nat (nth p (nth i al []) 0).
  Proof.
    intros H K. unfold hspec. destruct (Nat.eqb_spec (1 + i) 0); [lia|]. destruct (Nat.leb_spec (1 + i) nl); [|lia].
    destruct (Nat.leb_spec po (po + p)); [|lia]. destruct (Nat.ltb_spec (po + p) sink); [|unfold sink in *; lia]. cbn [andb].
    replace (1 + i - 1) with i by lia. now replace (po + p - po) with p by lia.
  Qed.
  Lemma hs_snk al p : p < np -> hspec al (po + p) sink = Z.of_nat (nth p pcounts 0).
  Proof.
    intro H. unfold hspec. destruct (Nat.eqb_spec (po + p) 0); [unfold po in *; lia|]. destruct (Nat.leb_spec (po + p) nl); [unfold po in *; lia|].
    destruct (Nat.ltb_spec (po + p) sink); [|unfold sink in *; lia]. rewrite Nat.eqb_refl. now replace (po + p - po) with p by lia.
  Qed.
  Lemma hs_none al u v : feasible sizes allowed pcounts al -> cspec u v = 0%Z -> hspec al u v = 0%Z.
  Proof. intros Fe C. pose proof (hspec_le al u v Fe). lia. Qed.
  Lemma rows_sum (al : list (list nat)) : length al = nl -> (forall i, i < nl -> length (nth i al []) = np) ->
    forall i, i < nl -> nsum np (fun p => Z.of_nat (nth p (nth i al []) 0)) = Z.of_nat (list_sum (nth i al [])).
  Proof. intros A B i Hi. apply nsum_list. auto. Qed.
  Lemma cols_sum (al : list (list nat)) p : length al = nl ->
    nsum nl (fun i => Z.of_nat (nth p (nth i al []) 0)) = Z.of_nat (list_sum (map (fun row => nth p row 0) al)).
  Proof.
    intro A. rewrite <- (nsum_list (map (fun row => nth p row 0) al) nl) by now rewrite map_length.
    apply nsum_ext. intros i Hi. now rewrite (nth_map_in _ _ _ []) by lia.
  Qed.
  Lemma gflow_flow al : feasible sizes allowed pcounts al ->
    flow_in (S sink) cspec 0 sink (gflow al) /\ nsum (S sink) (gflow al 0) = Z.of_nat total.
  Proof.
    intro Fe. pose proof Fe as (A & B & C & D & E). fold nl in A, B, C, D. fold np in B, C, E.
    assert (FL : flow_in (S sink) cspec 0 sink (gflow al)).
    { repeat split.
      - intros u v. unfold gflow. lia.
      - intros u v. unfold gflow. pose proof (hspec_le al u v Fe). pose proof (hspec_le al v u Fe). lia.
      - intros u Hu U0 US. rewrite nodes_sum. unfold gflow.
        destruct (Nat.le_gt_cases u nl) as [U|U].
        + (* label node *)
          set (i := u - 1). replace u with (1 + i) by (unfold i; lia). assert (Hi : i < nl) by (unfold i; lia).
          rewrite (hs_none al (1 + i) 0 Fe (back_src i Hi)), hs_src by auto.
          rewrite (nsum_zero nl); [|intros j J; destruct (ne_lab_lab i j Hi J); rewrite !hs_none; auto].
          destruct (ne_lab_snk i Hi). rewrite !(hs_none al _ _ Fe) by auto.
          rewrite (nsum_ext np _ (fun p => Z.of_nat (nth p (nth i al []) 0))).
          * rewrite rows_sum by auto. lia.
          * intros p Hp. rewrite hs_mid, (hs_none al _ _ Fe (back_mid i p Hi Hp)) by auto. lia.
        + set (p := u - po). replace u with (po + p) by (unfold p, po; lia). assert (Hp : p < np) by (unfold p, sink, po in *; lia).
          destruct (ne_src_p p Hp) as [N1 N2]. rewrite !(hs_none al _ _ Fe) by auto.
          rewrite (nsum_zero np); [|intros q Q; destruct (ne_p_p p q Hp Q); rewrite !hs_none; auto].
          rewrite hs_snk, (hs_none al _ _ Fe (back_snk p Hp)) by auto.
          rewrite (nsum_ext nl _ (fun i => - Z.of_nat (nth p (nth i al []) 0%nat))%Z).
          * rewrite nsum_opp, cols_sum, E by auto. lia.
          * intros i Hi. rewrite hs_mid, (hs_none al _ _ Fe (back_mid i p Hi Hp)) by auto. lia. }
    split; auto. rewrite value_snk by auto.
    rewrite (nsum_ext np _ (fun p => Z.of_nat (nth p pcounts 0))); [now apply nsum_list|].
    intros p Hp. unfold gflow. rewrite hs_snk, (hs_none al _ _ Fe (back_snk p Hp)) by auto. lia.
  Qed.
End Graph.

Lemma nsum_nat k (f : nat -> Z) : (forall i, i < k -> (0 <= f i)%Z) -> Z.of_nat (list_sum (map (fun i => Z.to_nat (f i)) (seq 0 k))) = nsum k f.
Proof.
  intro H. rewrite <- (nsum_list _ k) by now rewrite map_length, seq_length.
  apply nsum_ext. intros i Hi. rewrite nth_map_seq by auto. rewrite Z2Nat.id; auto.
Qed.

(** The allocation exists exactly if a feasible one does, and is feasible. *)
Lemma allocations_spec imax sizes allowed pcounts : (0 < imax)%Z ->
  match allocations imax sizes allowed pcounts with
  | Some al => feasible sizes allowed pcounts al
  | None => ~ exists al, feasible sizes allowed pcounts al
  end.
Proof.
  intro HI. unfold allocations. destruct (flow_graph sizes allowed pcounts) as [a c] eqn:G.
  set (nl := length sizes). set (np := length pcounts). set (po := 1 + nl). set (sink := po + np). set (total := list_sum pcounts).
  assert (GC : forall u v, c u v = cspec sizes allowed pcounts u v) by (intros; rewrite <- graph_caps, G; auto).
  assert (Hs : 0 < S sink) by lia. assert (Ht : sink < S sink) by lia. assert (Hst : 0 <> sink) by (unfold sink, po; lia).
  assert (Hadj : forall u v, In v (a u) -> v < S sink).
  { intros u v I. apply (graph_range sizes allowed pcounts u v). now rewrite G. }
  assert (Hc0 : forall u v, (0 <= c u v)%Z) by (intros; rewrite GC; apply cspec_nonneg).
  assert (Hedge : forall u v, (c u v <> 0)%Z -> In v (a u) /\ In u (a v)).
  { intros u v H. pose proof (graph_edge sizes allowed pcounts u v) as E. rewrite G in E. auto. }
  assert (FE : forall f, flow_in (S sink) c 0 sink f <-> flow_in (S sink) (cspec sizes allowed pcounts) 0 sink f).
  { intro f. unfold flow_in. split; intros (X & Y & Z); repeat split; auto; intros u v; specialize (Y u v); rewrite GC in *; auto. }
  assert (KT : K (S sink) sink c = Z.of_nat total).
  { unfold K. unfold sink, po, nl, np. rewrite nodes_sum. rewrite !GC.
    rewrite (proj1 (ne_src_snk sizes allowed pcounts)), (proj1 (ne_snk_snk sizes allowed pcounts)).
    rewrite (nsum_zero (length sizes)); [|intros i Hi; rewrite GC; apply (ne_lab_snk sizes allowed pcounts i Hi)].
    rewrite (nsum_ext (length pcounts) _ (fun p => Z.of_nat (nth p pcounts 0))); [rewrite nsum_list; auto; lia|].
    intros p Hp. rewrite GC. now apply cs_snk. }
  destruct (max_flow_spec (S sink) 0 sink a c imax Hs Ht Hst Hadj Hc0 Hedge HI (S total) c 0 (finv_init _ _ _ _ Hs Ht Hst Hc0) ltac:(rewrite KT; lia))
    as (flow & c' & E & I & CUT). fold nl np po sink total. rewrite E.
  pose proof (finv_flow _ _ _ _ Hs Ht Hst _ _ I) as FL. pose proof (proj1 (FE _) FL) as FL'.
  destruct (Z.eqb_spec flow (Z.of_nat total)) as [ET|ET]; cbn [negb].
  - set (f := fun u v => (c u v - c' u v)%Z) in *.
    assert (AL : forall i p, i < nl -> p < np -> c' (po + p) (1 + i) = f (1 + i) (po + p)).
    { intros i p Hi Hp. unfold f. pose proof (f_skew _ _ _ _ _ _ I (po + p) (1 + i)). rewrite !GC in *.
      assert (BM : cspec sizes allowed pcounts (po + p) (1 + i) = 0%Z) by exact (back_mid sizes allowed pcounts i p Hi Hp). rewrite BM in H. lia. }
    set (al := map (fun i => map (fun p => Z.to_nat (c' (po + p) (1 + i))) (seq 0 np)) (seq 0 nl)).
    assert (ALn : forall i, i < nl -> nth i al [] = map (fun p => Z.to_nat (f (1 + i) (po + p))) (seq 0 np)).
    { intros i Hi. unfold al. rewrite nth_map_seq by auto. apply map_ext_in. intros p P. apply in_seq in P. rewrite AL; auto. lia. }
    assert (NN : forall i p, i < nl -> p < np -> (0 <= f (1 + i)%nat (po + p)%nat)%Z).
    { intros. now apply (f_mid_nn sizes allowed pcounts f FL'). }
    split; [unfold al; now rewrite map_length, seq_length|]. fold nl np. split; [|split; [|split]].
    + intros i Hi. rewrite ALn, map_length, seq_length; auto.
    + intros i p Hi Hp NA. rewrite ALn, nth_map_seq by auto.
      destruct FL' as (_ & CP & _). specialize (CP (1 + i) (po + p)).
      assert (CM : cspec sizes allowed pcounts (1 + i) (po + p) = if allowed i p then Z.of_nat total else 0%Z) by exact (cs_mid sizes allowed pcounts i p Hi Hp).
      rewrite CM, NA in CP. lia.
    + intros i Hi. rewrite ALn by auto. apply Nat2Z.inj_le. rewrite nsum_nat by auto.
      assert (LB : nsum np (fun p => f (1 + i) (po + p)) = f 0 (1 + i)) by exact (label_balance sizes allowed pcounts f FL' i Hi). rewrite LB.
      destruct FL' as (_ & CP & _). specialize (CP 0 (1 + i)). now rewrite cs_src in CP.
    + (* the sink edges are saturated *)
      assert (SAT : forall p, p < np -> f (po + p) sink = Z.of_nat (nth p pcounts 0)).
      { apply nsum_le_eq.
        - intros p Hp. destruct FL' as (_ & CP & _). specialize (CP (po + p) sink).
          assert (CS : cspec sizes allowed pcounts (po + p) sink = Z.of_nat (nth p pcounts 0)) by exact (cs_snk sizes allowed pcounts p Hp). now rewrite CS in CP.
        - rewrite nsum_list by auto. fold total. rewrite <- ET, <- (f_val _ _ _ _ _ _ I).
          symmetry. exact (value_snk sizes allowed pcounts f FL'). }
      intros p Hp. apply Nat2Z.inj. rewrite <- (SAT p Hp).
      assert (PB : nsum nl (fun i => f (1 + i) (po + p)) = f (po + p) sink) by exact (part_balance sizes allowed pcounts f FL' p Hp). rewrite <- PB.
      rewrite <- (nsum_nat nl) by (intros; now apply NN). f_equal. f_equal. unfold al. rewrite map_map. apply map_ext_in.
      intros i Ii. apply in_seq in Ii. rewrite nth_map_seq by auto. rewrite AL; auto. lia.
  - intros (al & Fe). destruct (gflow_flow sizes allowed pcounts al Fe) as [GF GV]. apply FE in GF.
    pose proof (max_flow_max (S sink) 0 sink c Hs Ht Hst c' flow _ I CUT GF) as MX. 
    assert (GV' : nsum (S sink) (gflow sizes pcounts al 0) = Z.of_nat total) by exact GV. rewrite GV' in MX.
    pose proof (finv_bound (S sink) 0 sink c Hs Ht Hst Hc0 c' flow I) as BD. rewrite KT in BD. unfold total in *. lia.
Qed.
