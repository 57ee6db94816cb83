From Coq Require Import Reals List Bool Arith ZArith Lia Lra Permutation Sorted String.
From Verif.Model Require Import PyDict History Vec Network Metrics Aggregate.
From Verif.Spec Require Import AggregateSpec.
From Verif.Proofs Require Import PyDictProofs EmpiricalProofs MetricsProofs MetricsPipeline AggregateProofs.
Import ListNotations.
Local Open Scope R_scope.

Lemma nodup_transfer {A B C} (g : A -> B) (h : A -> C) l : NoDup (map h l) ->
  (forall a b, In a l -> In b l -> g a = g b -> h a = h b) -> NoDup (map g l).
Proof.
  induction l as [|a l IH]; cbn [map]; intros ND H; [constructor|]. inversion ND as [|? ? N ND']. subst. constructor.
  - intro I. apply in_map_iff in I. destruct I as (b & E & I). apply N. rewrite (H a b); [now apply in_map|now left|now right|congruence].
  - apply IH; auto. intros x y Ix Iy. apply H; now right.
Qed.
Lemma nodup_filter_map {A B} (h : A -> B) P l : NoDup (map h l) -> NoDup (map h (filter P l)).
Proof.
  induction l as [|a l IH]; cbn [map filter]; intro ND; [constructor|]. inversion ND as [|? ? N ND']. subst.
  destruct (P a); cbn [map]; auto. constructor; auto. intro I. apply N. apply in_map_iff in I. destruct I as (b & <- & I). apply filter_In in I. now apply in_map.
Qed.
Lemma enumerate_snd {A} (l : list A) : map snd (enumerate l) = l.
Proof.
  unfold enumerate. generalize 0%nat. induction l as [|a l IH]; intro k; [reflexivity|]. cbn [List.length seq combine map snd]. now rewrite IH.
Qed.
Lemma enumerate_nodup {A} (l : list A) : NoDup (enumerate l).
Proof.
  apply (NoDup_map_inv fst). unfold enumerate. assert (H : forall k, map fst (combine (seq k (List.length l)) l) = seq k (List.length l)).
  { induction l as [|a l IH]; intro k; [reflexivity|]. cbn [List.length seq combine map fst]. now rewrite IH. }
  rewrite H. apply seq_NoDup.
Qed.
Lemma nth_error_map_Fin rs j v : nth_error (map Fin rs) j = Some v <-> exists r, nth_error rs j = Some r /\ v = Fin r.
Proof.
  rewrite nth_error_map. destruct (nth_error rs j) as [r|]; cbn; split; [intros [= <-]; eauto|intros (r' & [= <-] & ->); auto|discriminate|intros (r' & [=] & _)].
Qed.
Lemma map_filter_of {A K V} (keqb : K -> K -> bool) (g : A -> K * V) k l :
  of_key keqb k (map g l) = map (fun a => snd (g a)) (filter (fun a => keqb k (fst (g a))) l).
Proof. unfold of_key. induction l as [|a l IH]; [reflexivity|]. cbn [map filter]. destruct (keqb k (fst (g a))); cbn [map]; now rewrite IH. Qed.

Section Frames.
  Context {Alg : Type} (aeqb : Alg -> Alg -> bool) (aspec : forall a b, reflect (a = b) (aeqb a b)).
  Variables (to32 : fval -> fval) (odd : string -> list fval -> fval) (ddof : nat).
  Notation stat := (stat odd).

  Lemma stat_perm name fn l rs : (forall l l', Permutation l l' -> fn l = fn l') -> Permutation l (map Fin rs) -> stat name fn l = Fin (fn rs).
  Proof.
    intros H P. destruct (finites_perm l rs P) as (rs' & -> & P'). unfold Aggregate.stat. rewrite finites_map. now rewrite (H _ _ P').
  Qed.

  (** grouping a list whose groups are known *)
  Section Two.
    Variables (A : Type) (l : list A) (ix : A -> nat) (val : A -> fval) (hk : A -> nat) .
    Lemma indexed_perm (T : nat) (v : nat -> fval) : NoDup (map ix l) ->
      (forall i w, (exists a, In a l /\ ix a = i /\ val a = w) <-> (i < T)%nat /\ w = v i) -> Permutation (map val l) (map v (seq 0 T)).
    Proof.
      intros ND H. assert (P : Permutation (map (fun a => (ix a, val a)) l) (map (fun i => (i, v i)) (seq 0 T))).
      { apply NoDup_Permutation.
        - apply (nodup_transfer (fun a => (ix a, val a)) ix); auto. intros a b _ _ E. congruence.
        - apply (nodup_transfer (fun i => (i, v i)) (fun i => i)); [rewrite map_id; apply seq_NoDup|]. intros a b _ _ E. congruence.
        - intros (i & w). rewrite !in_map_iff. split.
          + intros (a & [= <- <-] & I). destruct (proj1 (H (ix a) (val a))) as (L & E); [eauto|]. exists (ix a). rewrite E. split; [reflexivity|apply in_seq; lia].
          + intros (i' & [= <- <-] & I). apply in_seq in I. destruct (proj2 (H i' (v i'))) as (a & J & <- & E); [split; [lia|auto]|]. exists a. rewrite E. auto. }
      apply (Permutation_map snd) in P. rewrite !map_map in P. exact P.
    Qed.
  End Two.

  Definition rkey (w : row Alg) : Alg * nat * nat * Z := (w_alg w, w_trial w, w_agent w, w_iter w).

  Section Plot.
    Variables (f : list (row Alg)) (alg : Alg) (it : Z) (T : nat) (vals : nat -> list R).
    Hypotheses (ND : NoDup (map rkey f))
      (H : forall i j v, In (mkRow alg i j it v) f <-> (i < T)%nat /\ exists r, nth_error (vals i) j = Some r /\ v = Fin r)
      (NE : forall i, (i < T)%nat -> vals i <> []) (T0 : (0 < T)%nat).
    Let keq3 := pair_eqb (pair_eqb aeqb Nat.eqb) Z.eqb.
    Let keq2 := pair_eqb aeqb Z.eqb.
    Let L := map (fun w => ((w_alg w, w_trial w, w_iter w), w_value w)) f.
    Lemma k3 : forall p q, reflect (p = q) (keq3 p q).
    Proof. apply pair_eqb_spec; [apply pair_eqb_spec; [exact aspec|apply Nat.eqb_spec]|apply Z.eqb_spec]. Qed.
    Lemma k2 : forall p q, reflect (p = q) (keq2 p q).
    Proof. apply pair_eqb_spec; [exact aspec|apply Z.eqb_spec]. Qed.

    Lemma trial_group i : (i < T)%nat -> Permutation (of_key keq3 (alg, i, it) L) (map Fin (vals i)).
    Proof.
      intro Hi. unfold L. rewrite map_filter_of. cbn [fst snd]. set (G := filter _ f).
      assert (GI : forall w, In w G <-> In w f /\ w_alg w = alg /\ w_trial w = i /\ w_iter w = it).
      { intro w. unfold G. rewrite filter_In. destruct (k3 (alg, i, it) (w_alg w, w_trial w, w_iter w)) as [E|E]; split; intros (? & ?).
        - split; auto. injection E as <- <- <-. auto.
        - split; auto.
        - discriminate.
        - exfalso. apply E. destruct H1 as (<- & <- & <-). reflexivity. }
      rewrite <- (enumerate_snd (map Fin (vals i))). replace (map (fun a => w_value a) G) with (map snd (map (fun w => (w_agent w, w_value w)) G)) by (rewrite map_map; reflexivity). apply Permutation_map.
      apply NoDup_Permutation; [|apply enumerate_nodup|].
      - apply (nodup_transfer _ rkey); [now apply nodup_filter_map|]. intros a b Ia Ib E. apply GI in Ia, Ib. unfold rkey.
        destruct Ia as (_ & -> & -> & ->), Ib as (_ & -> & -> & ->). injection E as -> _. reflexivity.
      - intros (j & v). rewrite enumerate_nth, nth_error_map_Fin, in_map_iff. split.
        + intros (w & E & I). injection E as <- <-. apply GI in I. destruct I as (I & Ea & Et & Ei). destruct w as [wa wt wj wi wv]. cbn in *. subst.
          apply H in I. apply I.
        + intro E. exists (mkRow alg i j it v). split; [reflexivity|]. apply GI. cbn. repeat split; auto. apply H. auto.
    Qed.
    Lemma trial_none i : ~ (i < T)%nat -> of_key keq3 (alg, i, it) L = [].
    Proof.
      intro Hi. destruct (of_key keq3 (alg, i, it) L) as [|v l] eqn:E; [reflexivity|]. exfalso. assert (I : In v (of_key keq3 (alg, i, it) L)) by (rewrite E; now left).
      apply (of_key_In keq3 k3) in I. apply in_map_iff in I. destruct I as ([wa wt wj wi wv] & E' & I). cbn in E'. injection E' as -> -> -> ->. apply H in I. tauto.
    Qed.
    Lemma means_group : Permutation
      (of_key keq2 (alg, it) (map (fun p => ((fst (fst (fst p)), snd (fst p)), stat "mean" ravg (snd p))) (group keq3 L)))
      (map (fun i => Fin (ravg (vals i))) (seq 0 T)).
    Proof.
      rewrite map_filter_of. cbn [fst snd]. set (G := filter _ (group keq3 L)).
      assert (GI : forall p, In p G <-> In p (group keq3 L) /\ fst (fst (fst p)) = alg /\ snd (fst p) = it).
      { intro p. unfold G. rewrite filter_In. destruct (k2 (alg, it) (fst (fst (fst p)), snd (fst p))) as [E|E]; split; intros (? & ?).
        - split; auto. injection E as <- <-. auto.
        - split; auto.
        - discriminate.
        - exfalso. apply E. destruct H1 as (<- & <-). reflexivity. }
      apply (indexed_perm _ G (fun p => snd (fst (fst p))) (fun p => stat "mean" ravg (snd p)) T (fun i => Fin (ravg (vals i)))).
      - apply (nodup_transfer _ fst); [apply nodup_filter_map, (group_keys keq3 k3)|]. intros a b Ia Ib E. apply GI in Ia, Ib.
        destruct a as [[[a1 a2] a3] a4], b as [[[b1 b2] b3] b4]. cbn in *. destruct Ia as (_ & -> & ->), Ib as (_ & -> & ->). congruence.
      - intros i w. split.
        + intros (p & I & <- & <-). apply GI in I. destruct p as [[[a1 a2] a3] vs]. cbn [fst snd] in *. destruct I as (I & -> & ->).
          apply (group_In keq3 k3) in I. destruct I as (-> & N). destruct (lt_dec a2 T) as [Hi|Hi]; [|rewrite trial_none in N by exact Hi; contradiction].
          split; [exact Hi|]. apply stat_perm; [apply ravg_perm|now apply trial_group].
        + intros (Hi & ->). exists ((alg, i, it), of_key keq3 (alg, i, it) L). cbn [fst snd]. split.
          * apply GI. cbn. split; [|auto]. apply (group_In keq3 k3). split; [reflexivity|]. intro Z. pose proof (trial_group i Hi) as P. rewrite Z in P.
            apply Permutation_nil in P. apply map_eq_nil in P. now apply (NE i).
          * split; [reflexivity|]. apply stat_perm; [apply ravg_perm|now apply trial_group].
    Qed.
    Lemma aggregate_plot_spec x : In ((alg, it), x) (aggregate_plot aeqb to32 odd f) <->
      let ms := map (fun i => ravg (vals i)) (seq 0 T) in
      x = (to32 (Fin (ravg ms)), to32 (Fin (rmin ms)), to32 (Fin (rmax ms))).
    Proof.
      cbn zeta. unfold aggregate_plot. fold keq3 keq2 L.
      set (M := map (fun p => ((fst (fst (fst p)), snd (fst p)), stat "mean" ravg (snd p))) (group keq3 L)).
      pose proof means_group as P. fold M in P. rewrite <- (map_map (fun i => ravg (vals i)) Fin) in P. set (ms := map (fun i => ravg (vals i)) (seq 0 T)) in *.
      rewrite in_map_iff. split.
      - intros ((k & vs) & E & I). cbn [fst snd] in E. injection E as -> <-. apply (group_In keq2 k2) in I. destruct I as (-> & _).
        rewrite !(stat_perm _ _ _ ms) by (auto using ravg_perm, rmin_perm, rmax_perm). reflexivity.
      - intros ->. exists ((alg, it), of_key keq2 (alg, it) M). cbn [fst snd]. split.
        + rewrite !(stat_perm _ _ _ ms) by (auto using ravg_perm, rmin_perm, rmax_perm). reflexivity.
        + apply (group_In keq2 k2). split; [reflexivity|]. intro Z. rewrite Z in P. apply Permutation_nil in P. apply map_eq_nil in P. unfold ms in P.
          apply map_eq_nil in P. destruct T; [lia|discriminate].
    Qed.
  End Plot.

  (** ** tables *)
  Definition tkey (w : table_row Alg) : Alg * nat * nat := fst w.
  Lemma distinct_In l x : In x (distinct l) <-> In x l.
  Proof.
    induction l as [|y l IH]; [tauto|]. cbn [distinct In]. rewrite filter_In, IH. destruct (Nat.eqb_spec y x); cbn; intuition congruence.
  Qed.
  Lemma distinct_one l : List.length (distinct l) = 1%nat <-> l <> [] /\ forall x y, In x l -> In y l -> x = y.
  Proof.
    split.
    - intro E. destruct (distinct l) as [|z [|z' d]] eqn:D; try discriminate. split; [intros ->; discriminate|].
      intros x y Ix Iy. rewrite <- distinct_In in Ix, Iy. rewrite D in Ix, Iy. destruct Ix as [<-|[]], Iy as [<-|[]]. reflexivity.
    - intros (N & H). destruct l as [|z l]; [contradiction|]. cbn [distinct List.length]. f_equal. destruct (filter _ (distinct l)) as [|x d] eqn:D; [reflexivity|]. exfalso.
      assert (I : In x (filter (fun y => negb (Nat.eqb z y)) (distinct l))) by (rewrite D; now left). apply filter_In in I. destruct I as (I & E). apply (proj1 (distinct_In _ _)) in I.
      assert (Z : z = x) by (apply H; [now left|now right]). rewrite Z, Nat.eqb_refl in E. discriminate.
  Qed.

  Section Table.
    Variables (f : list (table_row Alg)) (alg : Alg) (T : nat) (vals : nat -> list R).
    Hypotheses (ND : NoDup (map tkey f))
      (H : forall i j v, In (alg, i, j, v) f <-> (i < T)%nat /\ exists r, nth_error (vals i) j = Some r /\ v = Fin r)
      (NE : forall i, (i < T)%nat -> vals i <> []) (T0 : (0 < T)%nat).
    Let keqt := pair_eqb aeqb Nat.eqb.
    Let keqs := pair_eqb aeqb String.eqb.
    Let L := map (fun w : table_row Alg => (fst (fst w), snd w)) f.
    Lemma kt : forall p q, reflect (p = q) (keqt p q).
    Proof. apply pair_eqb_spec; [exact aspec|apply Nat.eqb_spec]. Qed.
    Lemma ks : forall p q, reflect (p = q) (keqs p q).
    Proof. apply pair_eqb_spec; [exact aspec|apply String.eqb_spec]. Qed.
    Lemma agents_group i : (i < T)%nat -> Permutation (of_key keqt (alg, i) L) (map Fin (vals i)).
    Proof.
      intro Hi. unfold L. rewrite map_filter_of. cbn [fst snd]. set (G := filter _ f).
      assert (GI : forall w, In w G <-> In w f /\ fst (fst w) = (alg, i)).
      { intro w. unfold G. rewrite filter_In. destruct (kt (alg, i) (fst (fst w))) as [E|E]; split; intros (? & ?); try discriminate; (split; [assumption|]); try reflexivity; congruence. }
      rewrite <- (enumerate_snd (map Fin (vals i))). assert (GM : map (fun a : table_row Alg => snd a) G = map snd (map (fun w : table_row Alg => (snd (fst w), snd w)) G)) by (rewrite map_map; apply map_ext; intros [? ?]; reflexivity).
      rewrite GM. clear GM. apply Permutation_map.
      apply NoDup_Permutation; [|apply enumerate_nodup|].
      - apply (nodup_transfer _ tkey); [now apply nodup_filter_map|]. intros a b Ia Ib E. apply GI in Ia, Ib. unfold tkey.
        destruct a as [[a1 a2] a3], b as [[b1 b2] b3]. cbn in *. destruct Ia as (_ & ->), Ib as (_ & ->). congruence.
      - intros (j & v). rewrite enumerate_nth, nth_error_map_Fin, in_map_iff. split.
        + intros ([[k j'] v'] & E & I). cbn in E. injection E as -> ->. apply GI in I. cbn in I. destruct I as (I & ->). apply H in I. apply I.
        + intro E. exists (alg, i, j, v). split; [reflexivity|]. apply GI. cbn. split; auto. apply H. auto.
    Qed.
    Lemma agents_none i : ~ (i < T)%nat -> of_key keqt (alg, i) L = [].
    Proof.
      intro Hi. destruct (of_key keqt (alg, i) L) as [|v l] eqn:E; [reflexivity|]. exfalso. assert (I : In v (of_key keqt (alg, i) L)) by (rewrite E; now left).
      apply (of_key_In keqt kt) in I. apply in_map_iff in I. destruct I as ([[k j] v'] & E' & I). cbn in E'. injection E' as -> ->. apply H in I. tauto.
    Qed.
    Lemma stat_rows name fn : (forall l l', Permutation l l' -> fn l = fn l') ->
      Permutation (of_key keqs (alg, name) (map (fun p => ((fst (fst p), name), stat name fn (snd p))) (group keqt L)))
        (map (fun i => Fin (fn (vals i))) (seq 0 T)).
    Proof.
      intro FP. rewrite map_filter_of. cbn [fst snd]. set (G := filter _ (group keqt L)).
      assert (GI : forall p, In p G <-> In p (group keqt L) /\ fst (fst p) = alg).
      { intro p. unfold G. rewrite filter_In. destruct (ks (alg, name) (fst (fst p), name)) as [E|E]; split; intros (? & ?); try discriminate; (split; [assumption|]); try reflexivity; congruence. }
      apply (indexed_perm _ G (fun p => snd (fst p)) (fun p => stat name fn (snd p)) T (fun i => Fin (fn (vals i)))).
      - apply (nodup_transfer _ fst); [apply nodup_filter_map, (group_keys keqt kt)|]. intros a b Ia Ib E. apply GI in Ia, Ib.
        destruct a as [[a1 a2] a3], b as [[b1 b2] b3]. cbn in *. destruct Ia as (_ & ->), Ib as (_ & ->). congruence.
      - intros i w. split.
        + intros (p & I & <- & <-). apply GI in I. destruct p as [[a1 a2] vs]. cbn [fst snd] in *. destruct I as (I & ->).
          apply (group_In keqt kt) in I. destruct I as (-> & N). destruct (lt_dec a2 T) as [Hi|Hi]; [|rewrite agents_none in N by exact Hi; contradiction].
          split; [exact Hi|]. apply stat_perm; [exact FP|now apply agents_group].
        + intros (Hi & ->). exists ((alg, i), of_key keqt (alg, i) L). cbn [fst snd]. split.
          * apply GI. cbn. split; [|auto]. apply (group_In keqt kt). split; [reflexivity|]. intro Z. pose proof (agents_group i Hi) as P. rewrite Z in P.
            apply Permutation_nil in P. apply map_eq_nil in P. now apply (NE i).
          * split; [reflexivity|]. apply stat_perm; [exact FP|now apply agents_group].
    Qed.
    Lemma other_stat name st : fst st <> name ->
      of_key keqs (alg, name) (map (fun p => ((fst (fst p), fst st), stat (fst st) (snd st) (snd p))) (group keqt L)) = [].
    Proof.
      intro N. rewrite map_filter_of. cbn [fst snd]. replace (filter _ (group keqt L)) with (@nil (Alg * nat * list fval)); [reflexivity|].
      symmetry. induction (group keqt L) as [|p l IH]; [reflexivity|]. cbn [filter]. destruct (ks (alg, name) (fst (fst p), fst st)) as [E|E]; [congruence|exact IH].
    Qed.
    Lemma of_stats stats name fn : NoDup (map fst stats) -> In (name, fn) stats -> (forall l l', Permutation l l' -> fn l = fn l') ->
      Permutation (of_key keqs (alg, name) (flat_map (fun st => map (fun p => ((fst (fst p), fst st), stat (fst st) (snd st) (snd p))) (group keqt L)) stats))
        (map (fun i => Fin (fn (vals i))) (seq 0 T)).
    Proof.
      intros NS I FP. induction stats as [|st stats IH]; [destruct I|]. cbn [flat_map]. rewrite of_key_app. cbn [map] in NS. inversion NS as [|? ? N1 N2]. subst.
      destruct I as [->|I].
      - cbn [fst snd] in *. replace (of_key keqs (alg, name) (flat_map _ stats)) with (@nil fval); [rewrite app_nil_r; now apply stat_rows|].
        symmetry. clear - N1 aspec. induction stats as [|st stats IH]; [reflexivity|]. cbn [flat_map]. rewrite of_key_app, other_stat; [|intro E; apply N1; cbn; now left].
        apply IH. intro X. apply N1. now right.
      - rewrite other_stat; [cbn [app]; now apply IH|]. intro E. apply N1. rewrite E. change name with (fst (name, fn)). now apply in_map.
    Qed.
    (** several agents *)
    Lemma aggregate_table_stats names name fn x : (exists i j i' j' a a' v v', In (a, i, j, v) f /\ In (a', i', j', v') f /\ j <> j') ->
      NoDup (map fst (resolve_statistics ddof names)) -> In (name, fn) (resolve_statistics ddof names) -> (forall l l', Permutation l l' -> fn l = fn l') ->
      In ((alg, name), x) (aggregate_table aeqb to32 odd ddof names f) <->
      let ss := map (fun i => fn (vals i)) (seq 0 T) in x = (to32 (Fin (ravg ss)), to32 (Fin (rstd 0 ss))).
    Proof.
      intros (i & j & i' & j' & a & a' & v & v' & I1 & I2 & J) NS IS FP. cbn zeta. unfold aggregate_table.
      destruct (Nat.eqb_spec (List.length (distinct (map (fun w : Alg * nat * nat * fval => snd (fst w)) f))) 1) as [E|_].
      { apply distinct_one in E. exfalso. apply J. apply E; [apply (in_map (fun w : Alg * nat * nat * fval => snd (fst w)) _ _ I1)|apply (in_map (fun w : Alg * nat * nat * fval => snd (fst w)) _ _ I2)]. }
      fold keqt keqs L. set (M := flat_map _ (resolve_statistics ddof names)).
      assert (P : Permutation (of_key keqs (alg, name) M) (map Fin (map (fun i => fn (vals i)) (seq 0 T)))) by (rewrite map_map; now apply of_stats).
      set (ss := map (fun i => fn (vals i)) (seq 0 T)) in *. rewrite in_map_iff. split.
      - intros ((k & vs) & E & I). cbn [fst snd] in E. injection E as -> <-. apply (group_In keqs ks) in I. destruct I as (-> & _).
        rewrite (stat_perm "mean" ravg _ ss ravg_perm P), (stat_perm "std" (rstd 0) _ ss (rstd_perm 0) P). reflexivity.
      - intros ->. exists ((alg, name), of_key keqs (alg, name) M). cbn [fst snd]. split.
        + rewrite (stat_perm "mean" ravg _ ss ravg_perm P), (stat_perm "std" (rstd 0) _ ss (rstd_perm 0) P). reflexivity.
        + apply (group_In keqs ks). split; [reflexivity|]. intro Z. rewrite Z in P. apply Permutation_nil in P. apply map_eq_nil in P. unfold ss in P.
          apply map_eq_nil in P. destruct T; [lia|discriminate].
    Qed.
    (** one value per trial *)
    Lemma aggregate_table_single names x : (forall a i j v, In (a, i, j, v) f -> j = 0%nat) ->
      In ((alg, ""%string), x) (aggregate_table aeqb to32 odd ddof names f) <->
      let ss := map (fun i => nth 0 (vals i) 0) (seq 0 T) in x = (to32 (Fin (ravg ss)), to32 (Fin (rstd 0 ss))).
    Proof.
      intro A0. cbn zeta. unfold aggregate_table.
      destruct (Nat.eqb_spec (List.length (distinct (map (fun w : Alg * nat * nat * fval => snd (fst w)) f))) 1) as [_|E].
      2:{ exfalso. apply E. apply distinct_one. split.
          - destruct (vals 0%nat) as [|r l] eqn:V; [exfalso; exact (NE 0%nat T0 V)|]. intro Z. apply map_eq_nil in Z.
            assert (I : In (alg, 0%nat, 0%nat, Fin r) f) by (apply H; split; [exact T0|]; exists r; rewrite V; auto). rewrite Z in I. destruct I.
          - intros p q Ip Iq. apply in_map_iff in Ip, Iq. destruct Ip as ([[[? ?] ?] ?] & <- & Ip), Iq as ([[[? ?] ?] ?] & <- & Iq). cbn. apply A0 in Ip, Iq. congruence. }
      fold keqs. set (M := map (fun w : Alg * nat * nat * fval => (fst (fst (fst w)), ""%string, snd w)) f).
      assert (P : Permutation (of_key keqs (alg, ""%string) M) (map Fin (map (fun i => nth 0 (vals i) 0) (seq 0 T)))).
      { rewrite map_map. unfold M. rewrite map_filter_of. cbn [fst snd]. match goal with |- context [@filter ?ty ?P f] => set (G := @filter ty P f) end.
        assert (GI : forall w, In w G <-> In w f /\ fst (fst (fst w)) = alg).
        { intro w. unfold G. rewrite filter_In. destruct (ks (alg, ""%string) (fst (fst (fst w)), ""%string)) as [E|E]; split; intros (? & ?); try discriminate; (split; [assumption|]); try reflexivity; congruence. }
        apply (indexed_perm _ G (fun w => snd (fst (fst w))) (fun w => snd w) T (fun i => Fin (nth 0 (vals i) 0))).
        - apply (nodup_transfer _ tkey); [now apply nodup_filter_map|]. intros [[[a1 a2] a3] a4] [[[b1 b2] b3] b4] Ia Ib E. apply GI in Ia, Ib. cbn in *.
          destruct Ia as (Ia & ->), Ib as (Ib & ->). apply A0 in Ia, Ib. unfold tkey. cbn. congruence.
        - intros i w. split.
          + intros ([[[a1 a2] a3] a4] & I & E1 & E2). apply GI in I. cbn in *. destruct I as (I & ->). subst. pose proof (A0 _ _ _ _ I) as ->.
            apply H in I. destruct I as (Hi & r & Er & ->). split; [exact Hi|]. destruct (vals i); [discriminate|]. cbn in *. congruence.
          + intros (Hi & ->). exists (alg, i, 0%nat, Fin (nth 0 (vals i) 0)). cbn. split; [|auto]. apply GI. cbn. split; auto. apply H. split; [exact Hi|].
            destruct (vals i) as [|r l] eqn:V; [now apply NE in Hi|]. exists r. auto. }
      set (ss := map (fun i => nth 0 (vals i) 0) (seq 0 T)) in *. rewrite in_map_iff. split.
      - intros ((k & vs) & E & I). cbn [fst snd] in E. injection E as -> <-. apply (group_In keqs ks) in I. destruct I as (-> & _).
        rewrite (stat_perm "mean" ravg _ ss ravg_perm P), (stat_perm "std" (rstd 0) _ ss (rstd_perm 0) P). reflexivity.
      - intros ->. exists ((alg, ""%string), of_key keqs (alg, ""%string) M). cbn [fst snd]. split.
        + rewrite (stat_perm "mean" ravg _ ss ravg_perm P), (stat_perm "std" (rstd 0) _ ss (rstd_perm 0) P). reflexivity.
        + apply (group_In keqs ks). split; [reflexivity|]. intro Z. rewrite Z in P. apply Permutation_nil in P. apply map_eq_nil in P. unfold ss in P.
          apply map_eq_nil in P. destruct T; [lia|discriminate].
    Qed.
  End Table.
End Frames.

(** ** Frames have no repeated rows *)
Lemma nodup_app {A} (l l' : list A) : NoDup l -> NoDup l' -> (forall x, In x l -> In x l' -> False) -> NoDup (l ++ l').
Proof.
  induction 1 as [|a l N ND IH]; intros ND' D; [exact ND'|]. cbn [app]. constructor.
  - intro I. apply in_app_iff in I. destruct I as [I|I]; [contradiction|]. apply (D a); [now left|exact I].
  - apply IH; auto. intros x I I'. apply (D x); [now right|exact I'].
Qed.
Lemma F2_in_r {A B} (R : A -> B -> Prop) l ys y : Forall2 R l ys -> In y ys -> exists a, In a l /\ R a y.
Proof. induction 1 as [|a z l ys H F IH]; cbn; [tauto|]. intros [<-|I]; [eauto|]. destruct (IH I) as (a' & ? & ?). eauto. Qed.
Lemma nodup_blocks {A B C D} (R : A -> list B -> Prop) (kf : A -> D) (g : B -> C) (h : C -> D) l ys : Forall2 R l ys -> NoDup (map kf l) ->
  (forall a y, In a l -> R a y -> NoDup (map g y) /\ forall b, In b y -> h (g b) = kf a) -> NoDup (map g (List.concat ys)).
Proof.
  intros F. induction F as [|a y l ys HR F IH]; intros ND H; [constructor|]. cbn [List.concat]. rewrite map_app. cbn [map] in ND. inversion ND as [|? ? N1 N2]. subst.
  destruct (H a y (or_introl eq_refl) HR) as (Ny & Ky). apply nodup_app; [exact Ny|apply IH; auto; intros; apply H; auto; now right|].
  intros c I I'. apply in_map_iff in I, I'. destruct I as (b & <- & Ib), I' as (b' & E & I'). apply in_concat in I'. destruct I' as (y' & Iy & Ib').
  destruct (F2_in_r _ _ _ _ F Iy) as (a' & Ia & Ra). destruct (H a' y' (or_intror Ia) Ra) as (_ & K').
  apply N1. rewrite <- (Ky b Ib), <- E, (K' b' Ib'). now apply in_map.
Qed.
Lemma at_iter_nodup {Alg} (to32 : fval -> fval) (views : list (Alg * list nview)) m it f : NoDup (map fst views) ->
  metrics_at_iter to32 views m it = Ok f -> NoDup (map rkey f) /\ forall w, In w f -> w_iter w = it.
Proof.
  intros NV E. split.
  - unfold metrics_at_iter in E. apply rbind_ok in E. destruct E as (bs & E & [= <-]). apply mapR_ok in E.
    apply (nodup_blocks _ fst rkey (fun k : Alg * nat * nat * Z => fst (fst (fst k))) _ _ E NV). intros p y _ Ey.
    apply rbind_ok in Ey. destruct Ey as (cs & Ec & [= <-]). apply mapR_ok in Ec. split.
    + apply (nodup_blocks _ fst rkey (fun k : Alg * nat * nat * Z => snd (fst (fst k))) _ _ Ec).
      * apply (nodup_transfer _ (fun q => q)); [rewrite map_id; apply enumerate_nodup|]. intros (i & a) (i' & b) Ia Ib Ei. cbn in Ei. subst.
        apply enumerate_nth in Ia, Ib. congruence.
      * intros (i & nv) y _ Ey. apply rbind_ok in Ey. destruct Ey as (vals & _ & [= <-]). cbn [fst snd]. split.
        -- rewrite map_map. unfold rkey. cbn [w_alg w_trial w_agent w_iter].
           apply (nodup_transfer _ (fun d => d)); [rewrite map_id; apply enumerate_nodup|]. intros (j & a) (j' & b) Ia Ib Ej. cbn in Ej. injection Ej as ->.
           apply enumerate_nth in Ia, Ib. congruence.
        -- intros w I. apply in_map_iff in I. destruct I as (d & <- & _). reflexivity.
    + intros w I. apply in_concat in I. destruct I as (y & Iy & Iw). destruct (F2_in_r _ _ _ _ Ec Iy) as (q & _ & Eq). apply rbind_ok in Eq. destruct Eq as (vals & _ & [= <-]).
      apply in_map_iff in Iw. destruct Iw as (d & <- & _). reflexivity.
  - intros w I. apply (at_iter_rows _ _ _ _ _ _ E) in I. destruct I as (p & nv & vals & u & _ & _ & _ & _ & _ & Ei & _). exact Ei.
Qed.
Lemma plot_frame_nodup {Alg} (to32 : fval -> fval) (views : list (Alg * list nview)) its m f : NoDup (map fst views) -> NoDup its ->
  plot_frame to32 views its m = Ok f -> NoDup (map rkey f).
Proof.
  intros NV NI E. unfold plot_frame in E. apply rbind_ok in E. destruct E as (bs & E & [= <-]). apply mapR_ok in E.
  apply (nodup_blocks _ (fun i => i) rkey (fun k : Alg * nat * nat * Z => snd k) _ _ E); [now rewrite map_id|]. intros it y _ Ey.
  destruct (at_iter_nodup to32 views m it y NV Ey) as (ND & I). split; [exact ND|exact I].
Qed.
Lemma drop_nodup {Alg} (f : list (row Alg)) it : NoDup (map rkey f) -> (forall w, In w f -> w_iter w = it) -> NoDup (map tkey (map drop_iter f)).
Proof.
  intros ND H. rewrite map_map. apply (nodup_transfer _ rkey); [exact ND|]. intros a b Ia Ib E. apply H in Ia, Ib. unfold tkey, drop_iter, rkey in *. cbn in E.
  injection E as -> -> ->. congruence.
Qed.
