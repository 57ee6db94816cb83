From Coq Require Import List ZArith Bool Lia Sorted Arith Permutation.
From Verif.Model Require Import PyDict History.
From Verif.Spec Require Import HistorySpec.
From Verif.Proofs Require Import PyDictProofs.
Import ListNotations.
Open Scope Z_scope.

Lemma div2_bounds lo hi : (lo < hi)%nat -> (lo <= Nat.div (lo + hi) 2 /\ Nat.div (lo + hi) 2 < hi)%nat.
Proof.
  intro H. split.
  - apply Nat.div_le_lower_bound; lia.
  - apply Nat.div_lt_upper_bound; lia.
Qed.

Lemma StronglySorted_nth (a : list Z) : StronglySorted Z.lt a ->
  forall i j, (i < j < length a)%nat -> nth i a 0 < nth j a 0.
Proof.
  induction 1 as [|x a S IH F]; simpl; intros i j H; [lia|].
  destruct j; [lia|]. destruct i.
  - rewrite Forall_forall in F. apply F. apply nth_In. lia.
  - apply IH. lia.
Qed.

Lemma bisect_right_loop_spec a x : StronglySorted Z.lt a ->
  forall fuel lo hi, (hi - lo <= fuel)%nat -> (lo <= hi <= length a)%nat ->
  (forall i, (i < lo)%nat -> nth i a 0 <= x) ->
  (forall i, (hi <= i < length a)%nat -> x < nth i a 0) ->
  let r := bisect_right_loop fuel a x lo hi in
  (r <= length a)%nat /\ (forall i, (i < r)%nat -> nth i a 0 <= x) /\
  (forall i, (r <= i < length a)%nat -> x < nth i a 0).
Proof.
  intros S. induction fuel as [|f IH]; intros lo hi Hf Hb Hl Hh; cbn [bisect_right_loop].
  - assert (lo = hi) by lia. subst. intuition lia.
  - destruct (Nat.ltb_spec lo hi).
    + destruct (div2_bounds lo hi H) as [B1 B2].
      set (mid := Nat.div (lo + hi) 2) in *.
      destruct (Z.ltb_spec x (nth mid a 0)).
      * apply IH; try lia; auto. intros i Hi.
        destruct (Nat.eq_dec i mid); [subst; auto|].
        assert (nth mid a 0 < nth i a 0) by (apply StronglySorted_nth; auto; lia). lia.
      * apply IH; try lia; auto. intros i Hi.
        destruct (Nat.eq_dec i mid); [subst; auto|].
        assert (nth i a 0 < nth mid a 0) by (apply StronglySorted_nth; auto; lia). lia.
    + assert (lo = hi) by lia. subst. intuition lia.
Qed.

Lemma bisect_right_spec a x : StronglySorted Z.lt a ->
  let r := bisect_right a x in
  (r <= length a)%nat /\ (forall i, (i < r)%nat -> nth i a 0 <= x) /\
  (forall i, (r <= i < length a)%nat -> x < nth i a 0).
Proof.
  intro S. apply bisect_right_loop_spec; auto; try lia; intros; lia.
Qed.

Lemma In_insort a x y : In y (insort a x) <-> y = x \/ In y a.
Proof.
  unfold insort, list_insert. rewrite in_app_iff. simpl.
  assert (HA : In y a <-> In y (firstn (bisect_right a x) a) \/ In y (skipn (bisect_right a x) a))
    by (rewrite <- in_app_iff, firstn_skipn; tauto).
  rewrite HA. intuition.
Qed.

Lemma length_insort a x : length (insort a x) = S (length a).
Proof.
  unfold insort, list_insert. rewrite app_length; simpl.
  assert (E : length (firstn (bisect_right a x) a ++ skipn (bisect_right a x) a) = length a)
    by now rewrite firstn_skipn.
  rewrite app_length in E. lia.
Qed.

Lemma StronglySorted_app (l1 l2 : list Z) : StronglySorted Z.lt l1 -> StronglySorted Z.lt l2 ->
  (forall a b, In a l1 -> In b l2 -> a < b) -> StronglySorted Z.lt (l1 ++ l2).
Proof.
  induction 1 as [|x a S IH F]; simpl; auto. intros S2 H.
  constructor.
  - apply IH; auto.
  - rewrite Forall_forall in *. intros y Hy. apply in_app_iff in Hy. destruct Hy; auto.
Qed.

Lemma StronglySorted_firstn (l : list Z) n : StronglySorted Z.lt l -> StronglySorted Z.lt (firstn n l).
Proof.
  intro S. revert n. induction S; intros [|n]; simpl; try constructor; auto.
  rewrite Forall_forall in *. intros y Hy. apply H.
  rewrite <- (firstn_skipn n l). apply in_app_iff; auto.
Qed.
Lemma StronglySorted_skipn (l : list Z) n : StronglySorted Z.lt l -> StronglySorted Z.lt (skipn n l).
Proof.
  intro S. revert n. induction S; intros [|n]; simpl; try constructor; auto.
Qed.

Lemma In_firstn_nth (l : list Z) n y : In y (firstn n l) -> exists i, (i < n)%nat /\ (i < length l)%nat /\ nth i l 0 = y.
Proof.
  revert n. induction l as [|a l IH]; intros [|n]; simpl; try tauto.
  intros [E|H]; [exists 0%nat; simpl; split; [lia|split; [lia|auto]]|].
  destruct (IH _ H) as (i & ? & ? & ?). exists (S i). simpl. split; [lia|split; [lia|auto]].
Qed.
Lemma In_skipn_nth (l : list Z) n y : In y (skipn n l) -> exists i, (n <= i < length l)%nat /\ nth i l 0 = y.
Proof.
  revert n. induction l as [|a l IH]; intros [|n]; simpl; try tauto.
  - intros [E|H]; [exists 0%nat; simpl; split; [lia|auto]|].
    destruct (In_nth _ _ 0 H) as (i & ? & ?). exists (S i). simpl. split; [lia|auto].
  - intro H. destruct (IH _ H) as (i & ? & ?). exists (S i). split; [lia|auto].
Qed.

Lemma insort_sorted a x : StronglySorted Z.lt a -> ~ In x a -> StronglySorted Z.lt (insort a x).
Proof.
  intros S N. destruct (bisect_right_spec a x S) as (B & L & U).
  unfold insort, list_insert. apply StronglySorted_app.
  - now apply StronglySorted_firstn.
  - constructor; [now apply StronglySorted_skipn|].
    rewrite Forall_forall. intros y Hy. apply In_skipn_nth in Hy.
    destruct Hy as (i & Hi & <-). apply U. lia.
  - intros u v Hu Hv. apply In_firstn_nth in Hu. destruct Hu as (i & Hi & Hl & <-).
    assert (nth i a 0 <= x) by (apply L; lia).
    assert (nth i a 0 <> x) by (intro E; apply N; rewrite <- E; apply nth_In; lia).
    destruct Hv as [<-|Hv]; [lia|]. apply In_skipn_nth in Hv.
    destruct Hv as (j & Hj & <-). assert (x < nth j a 0) by (apply U; lia). lia.
Qed.

Section H.
  Variable V : Type.
  Implicit Types (h : history V) (ws : list (Z * V)).

  Definition hinv ws h : Prop :=
    StronglySorted Z.lt (h_keys h) /\ NoDup (dkeys (h_dict h)) /\
    (forall k, In k (h_keys h) <-> In k (dkeys (h_dict h))) /\
    length (h_keys h) = length (h_dict h) /\
    (forall k, In k (h_keys h) <-> written ws k) /\
    (forall k v, dget Z.eqb (h_dict h) k = Some v <-> last_write ws k v).

  Lemma written_snoc ws k x k' : 0 <= k -> written (ws ++ [(k, x)]) k' <-> k' = k \/ written ws k'.
  Proof.
    intro P. unfold written. split.
    - intros (P' & v & I). apply in_app_iff in I. destruct I as [I|[I|[]]].
      + right; eauto.
      + left; congruence.
    - intros [->|(P' & v & I)].
      + split; auto. exists x. apply in_app_iff; simpl; auto.
      + split; auto. exists v. apply in_app_iff; auto.
  Qed.

  Lemma written_snoc_neg ws k x k' : k < 0 -> written (ws ++ [(k, x)]) k' <-> written ws k'.
  Proof.
    intro P. unfold written. split; intros (P' & v & I); split; auto; exists v.
    - apply in_app_iff in I. destruct I as [I|[I|[]]]; auto. inversion I; lia.
    - apply in_app_iff; auto.
  Qed.

  Lemma last_write_snoc_eq ws k x v : 0 <= k -> last_write (ws ++ [(k, x)]) k v <-> v = x.
  Proof.
    intro P. split.
    - intros (_ & l1 & l2 & E & N). destruct l2 as [|p l2'] using rev_ind.
      + apply app_inj_tail in E. destruct E as [_ E]. congruence.
      + clear IHl2'. rewrite app_comm_cons, app_assoc in E. apply app_inj_tail in E.
        destruct E as [_ E]. exfalso. apply (N x). rewrite in_app_iff; simpl. right; left. congruence.
    - intros ->. split; auto. exists ws, []. auto.
  Qed.

  Lemma last_write_snoc_neq ws k k' x v : k <> k' -> last_write (ws ++ [(k, x)]) k' v <-> last_write ws k' v.
  Proof.
    intro D. split; intros (P & l1 & l2 & E & N); split; auto.
    - destruct l2 as [|p l2'] using rev_ind.
      + apply app_inj_tail in E. destruct E as [_ E]. congruence.
      + clear IHl2'. rewrite app_comm_cons, app_assoc in E. apply app_inj_tail in E.
        destruct E as [E _]. exists l1, l2'. split; auto.
        intros v' I. apply (N v'). apply in_app_iff; auto.
    - exists l1, (l2 ++ [(k, x)]). split.
      + rewrite E, <- app_assoc. reflexivity.
      + intros v' I. apply in_app_iff in I. destruct I as [I|[I|[]]]; [eapply N; eauto|congruence].
  Qed.

  Lemma hinv_empty : hinv [] h_empty.
  Proof.
    unfold hinv, h_empty; simpl.
    split; [constructor|]. split; [constructor|]. split; [tauto|]. split; auto. split.
    - intro k; split; [tauto|]. intros (_ & v & []).
    - intros k v; split; [discriminate|]. intros (_ & l1 & l2 & E & _). destruct l1; discriminate.
  Qed.

  Lemma hinv_write ws h w : hinv ws h -> hinv (ws ++ [w]) (h_write h w).
  Proof.
    intros (S & N & KD & LE & W & L). destruct w as [k x].
    unfold h_write, h_set. simpl. destruct (Z.ltb_spec k 0).
    - (* rejected *)
      split; auto. split; auto. split; auto. split; auto. split.
      + intro k'. rewrite written_snoc_neg by lia. apply W.
      + intros k' v. rewrite L. destruct (Z.eq_dec k k').
        * subst. split; intros (P & _); lia.
        * now rewrite last_write_snoc_neq.
    - assert (ND := NoDup_dset _ _ _ Z.eqb_spec (h_dict h) k x N).
      assert (KS := dkeys_dset _ _ _ Z.eqb_spec (h_dict h) k x).
      assert (MI := dmem_In _ _ _ Z.eqb_spec (h_dict h) k).
      assert (LL : length (dset Z.eqb (h_dict h) k x) = length (dkeys (dset Z.eqb (h_dict h) k x)))
        by (unfold dkeys; now rewrite map_length).
      assert (LD : length (h_dict h) = length (dkeys (h_dict h))) by (unfold dkeys; now rewrite map_length).
      unfold hinv; simpl.
      assert (LW : forall k' v, dget Z.eqb (dset Z.eqb (h_dict h) k x) k' = Some v <->
                   last_write (ws ++ [(k, x)]) k' v).
      { intros k' v. rewrite dget_dset by apply Z.eqb_spec. destruct (Z.eqb_spec k' k).
        - subst. rewrite last_write_snoc_eq by lia. split; congruence.
        - rewrite last_write_snoc_neq by congruence. apply L. }
      destruct (dmem Z.eqb (h_dict h) k) eqn:E.
      + split; auto. split; auto. rewrite KS. split; auto.
        split; [rewrite LL, KS; lia|]. split; auto.
        intro k'. rewrite written_snoc by lia. rewrite W. split; [tauto|]. intros [->|X]; auto. apply W. apply KD. apply MI; auto.
      + assert (NI : ~ In k (h_keys h)) by (intro X; apply KD in X; apply MI in X; congruence).
        split; [now apply insort_sorted|]. split; auto. rewrite KS. split.
        { intro k'. rewrite In_insort, in_app_iff, KD. simpl. intuition. }
        split; [rewrite length_insort, LL, KS, app_length; simpl; lia|]. split; auto.
        intro k'. rewrite In_insort, written_snoc by lia. rewrite W. tauto.
  Qed.

  Lemma hinv_run ws : hinv ws (h_run ws).
  Proof.
    unfold h_run. assert (G : forall ws' pre h, hinv pre h -> hinv (pre ++ ws') (fold_left h_write ws' h)).
    { induction ws' as [|w ws' IH]; intros pre h I; simpl.
      - now rewrite app_nil_r.
      - replace (pre ++ w :: ws') with ((pre ++ [w]) ++ ws') by (rewrite <- app_assoc; reflexivity).
        apply IH. now apply hinv_write. }
    apply (G ws [] h_empty). apply hinv_empty.
  Qed.

  Lemma last_In (l : list Z) d : l <> [] -> In (last l d) l.
  Proof.
    intro N. destruct (exists_last N) as (l' & a & ->). rewrite last_last. apply in_app_iff; simpl; auto.
  Qed.

  Lemma last_max (l : list Z) d y : StronglySorted Z.lt l -> In y l -> y <= last l d.
  Proof.
    intros S I. destruct l as [|a l]; [destruct I|].
    destruct (exists_last (l := a :: l)) as (l' & b & E); [discriminate|].
    rewrite E in *. rewrite last_last. apply in_app_iff in I. destruct I as [I|[->|[]]]; [|lia].
    clear E. induction l' as [|c l' IH]; simpl in *; [destruct I|].
    inversion S; subst. destruct I as [->|I]; auto.
    rewrite Forall_forall in H2. assert (y < b) by (apply H2; apply in_app_iff; simpl; auto). lia.
  Qed.

  (** every key has a stored value *)
  Lemma hinv_value ws h k : hinv ws h -> In k (h_keys h) ->
    exists v, h_at h k = Ok v /\ last_write ws k v.
  Proof.
    intros (S & N & KD & LE & W & L) I. unfold h_at.
    destruct (dget Z.eqb (h_dict h) k) eqn:E.
    - exists v. split; auto. now apply L.
    - exfalso. apply (dget_None_iff _ _ _ Z.eqb_spec) in E. apply E. now apply KD.
  Qed.

  Lemma h_max_spec ws h : hinv ws h ->
    (forall m, h_max h = Ok m <-> latest ws m) /\ (h_max h = ValueError <-> forall k, ~ written ws k)
    /\ h_max h <> KeyError.
  Proof.
    intros (S & N & KD & LE & W & L). unfold h_max.
    destruct (h_keys h) as [|k ks] eqn:E.
    - split; [|split; [|discriminate]].
      + intro m; split; [discriminate|]. intros (X & _). apply W in X. destruct X.
      + split; auto. intros _ k X. apply W in X. destruct X.
    - assert (LA : latest ws (last (k :: ks) 0)).
      { split.
        - apply W. apply last_In. discriminate.
        - intros k' X. apply W in X. now apply last_max. }
      split; [|split; [|discriminate]].
      + intro m; split.
        * intros [= <-]. exact LA.
        * intros (X & Y). f_equal. destruct LA as (A & B). specialize (B _ X). specialize (Y _ A). lia.
      + split; [discriminate|]. intro X. exfalso. apply (X k). apply W. simpl; auto.
  Qed.

  Lemma h_min_spec ws h : hinv ws h ->
    (forall m, h_min h = Ok m <-> earliest ws m) /\ (h_min h = ValueError <-> forall k, ~ written ws k)
    /\ h_min h <> KeyError.
  Proof.
    intros (S & N & KD & LE & W & L). unfold h_min.
    destruct (h_keys h) as [|k ks] eqn:E.
    - split; [|split; [|discriminate]].
      + intro m; split; [discriminate|]. intros (X & _). apply W in X. destruct X.
      + split; auto. intros _ k X. apply W in X. destruct X.
    - assert (LA : earliest ws k).
      { split.
        - apply W. simpl; auto.
        - intros k' X. apply W in X. destruct X as [->|X]; [lia|]. inversion S; subst.
          rewrite Forall_forall in H2. specialize (H2 _ X). lia. }
      split; [|split; [|discriminate]].
      + intro m; split.
        * intros [= <-]. exact LA.
        * intros (X & Y). f_equal. destruct LA as (A & B). specialize (B _ X). specialize (Y _ A). lia.
      + split; [discriminate|]. intro X. exfalso. apply (X k). apply W. simpl; auto.
  Qed.

  Lemma h_get_spec ws h q : hinv ws h -> 0 <= q ->
    (forall v, h_get h q = Ok v <-> exists k, nearest_preceding ws q k /\ last_write ws k v) /\
    (h_get h q = ValueError <-> forall k, written ws k -> q < k) /\
    h_get h q <> KeyError.
  Proof.
    intros I P. pose proof I as (S & N & KD & LE & W & L).
    assert (LWU : forall k v v', last_write ws k v -> last_write ws k v' -> v = v').
    { intros k v v' A B. apply L in A. apply L in B. congruence. }
    assert (NPU : forall k k', nearest_preceding ws q k -> nearest_preceding ws q k' -> k = k').
    { intros k k' (A & B & C) (A' & B' & C'). specialize (C _ A' B'). specialize (C' _ A B). lia. }
    assert (G : forall k v, nearest_preceding ws q k -> h_at h k = Ok v -> last_write ws k v ->
       (forall v', Ok v = Ok v' <-> exists k, nearest_preceding ws q k /\ last_write ws k v') /\
       (Ok v = ValueError <-> forall k, written ws k -> q < k) /\ Ok v <> KeyError).
    { intros k v NP HA LW. split; [|split; [|discriminate]].
      - intro v'; split.
        + intros [= <-]. eauto.
        + intros (k' & NP' & LW'). rewrite (NPU _ _ NP NP') in LW. f_equal. eapply LWU; eauto.
      - split; [discriminate|]. intro X. exfalso. destruct NP as (A & B & _). specialize (X _ A). lia. }
    unfold h_get. destruct (Z.ltb_spec q (-1)); [lia|]. destruct (Z.eqb_spec q (-1)); [lia|].
    destruct (dmem Z.eqb (h_dict h) q) eqn:E.
    - apply (dmem_In _ _ _ Z.eqb_spec) in E. apply KD in E.
      destruct (hinv_value ws h q I E) as (v & HA & LW). rewrite HA. apply (G q); auto.
      split; [now apply W|]. split; [lia|]. auto.
    - destruct (bisect_right_spec (h_keys h) q S) as (B & Lo & Up).
      set (r := bisect_right (h_keys h) q) in *.
      destruct (Z.ltb_spec (Z.of_nat r - 1) 0).
      + assert (r = 0%nat) by lia. split; [|split; [|discriminate]].
        * intro v; split; [discriminate|]. intros (k & (A & C & _) & _). exfalso.
          apply W in A. destruct (In_nth _ _ 0 A) as (i & Hi & <-).
          assert (q < nth i (h_keys h) 0) by (apply Up; lia). lia.
        * split; auto. intros _ k A. apply W in A. destruct (In_nth _ _ 0 A) as (i & Hi & <-).
          apply Up; lia.
      + assert (R : (r > 0)%nat) by lia.
        replace (Z.to_nat (Z.of_nat r - 1)) with (r - 1)%nat by lia.
        assert (IK : In (nth (r - 1) (h_keys h) 0) (h_keys h)) by (apply nth_In; lia).
        destruct (hinv_value ws h _ I IK) as (v & HA & LW). rewrite HA. eapply G; eauto.
        split; [now apply W|]. split; [apply Lo; lia|]. intros k' A C. apply W in A.
        destruct (In_nth _ _ 0 A) as (i & Hi & <-).
        destruct (Nat.le_gt_cases r i).
        * assert (q < nth i (h_keys h) 0) by (apply Up; lia). lia.
        * destruct (Nat.eq_dec i (r - 1)); [subst; lia|].
          assert (nth i (h_keys h) 0 < nth (r - 1) (h_keys h) 0) by (apply StronglySorted_nth; auto; lia). lia.
  Qed.

  Lemma h_get_latest_spec ws h : hinv ws h ->
    (forall v, h_get h (-1) = Ok v <-> exists k, latest ws k /\ last_write ws k v) /\
    (h_get h (-1) = ValueError <-> forall k, ~ written ws k) /\ h_get h (-1) <> KeyError.
  Proof.
    intro I. pose proof I as (S & N & KD & LE & W & L).
    destruct (h_max_spec ws h I) as (A & B & C). unfold h_get. simpl.
    destruct (h_max h) as [m| |] eqn:E.
    - assert (LM : latest ws m) by (apply A; auto). destruct LM as (LM1 & LM2).
      assert (IK : In m (h_keys h)) by (now apply W).
      destruct (hinv_value ws h _ I IK) as (v & HA & LW). rewrite HA. split; [|split; [|discriminate]].
      + intro v'; split.
        * intros [= <-]. exists m. split; auto. split; auto.
        * intros (k & (X & Y) & Z'). specialize (LM2 _ X). specialize (Y _ LM1).
          assert (k = m) by lia. subst. f_equal. apply L in LW. apply L in Z'. congruence.
      + split; [discriminate|]. intro X. exfalso. apply (X m). auto.
    - split; [|split; [|discriminate]].
      + intro v; split; [discriminate|]. intros (k & (X & _) & _). exfalso. eapply B; eauto.
      + split; auto. intros _. now apply B.
    - congruence.
  Qed.
End H.
