From Coq Require Import List Bool Arith ZArith Permutation Lia.
From Verif.Model Require Import Partition Handlers.
From Verif.Spec Require Import PartitionSpec HandlerSpec.
From Verif.Props Require Import PartitionProps.
Import ListNotations.

Lemma hmap_ok {A B} (f : A -> hout B) : forall l r, hmap f l = HOk r <-> Forall2 (fun a b => f a = HOk b) l r.
Proof.
  induction l as [|a l IH]; intros r; cbn [hmap].
  - split; [intros [= <-]; constructor|intros H; now inversion H].
  - destruct (f a) as [b| | | |] eqn:Ef; cbn [hbind]; try (split; [discriminate|intros H; inversion H; congruence]).
    destruct (hmap f l) as [bs| | | |] eqn:El; cbn [hbind];
      try (split; [discriminate|intros H; inversion H as [|? ? ? ? _ H2]; subst; apply IH in H2; discriminate]).
    split.
    + intros [= <-]. constructor; [exact Ef|]. now apply IH.
    + intros H. inversion H as [|? b' ? bs' H1 H2]; subst. apply IH in H2. congruence.
Qed.
Lemma hmap_total {A B} (f : A -> hout B) (g : A -> B) : forall l, (forall a, In a l -> f a = HOk (g a)) -> hmap f l = HOk (map g l).
Proof.
  intros l H. apply hmap_ok. induction l as [|a l IH]; constructor; [apply H; now left|]. apply IH. intros; apply H; now right.
Qed.
Lemma Forall2_total {A B} (Q : A -> B -> Prop) : forall l, (forall a, In a l -> exists b, Q a b) -> exists r, Forall2 Q l r.
Proof.
  induction l as [|a l IH]; intros H; [eexists; constructor|].
  destruct (H a (or_introl eq_refl)) as [b Hb]. destruct IH as [r Hr]; [intros; apply H; now right|]. exists (b :: r). now constructor.
Qed.
Lemma Forall2_len {A B} (Q : A -> B -> Prop) : forall l r, Forall2 Q l r -> length l = length r.
Proof. induction 1; cbn; congruence. Qed.
Lemma Forall2_imp {A B} (Q Q' : A -> B -> Prop) : forall l r, Forall2 Q l r -> (forall a b, In a l -> Q a b -> Q' a b) -> Forall2 Q' l r.
Proof. intros l r H. induction H; intros I; constructor; [apply I; auto; now left|]. apply IHForall2. intros; apply I; auto; now right. Qed.

(** resolving and materialising with a function that names datapoints is right *)
Lemma split_generic {P} (D : list P) (get : list Z -> hout (list P)) ps :
  (forall zs, (forall z, In z zs -> (0 <= z < Z.of_nat (length D))%Z) -> exists r, get zs = HOk r /\ points_at D zs r) ->
  split_right D ps (hbind (of_resolved (resolve_partitions (length D) ps)) (hmap get)).
Proof.
  intros Hg. split.
  - intros zss A. apply C24_accepted_iff_valid in A as E. rewrite E. cbn [of_resolved hbind]. destruct A as (_ & _ & Hr).
    assert (Hr' : forall zs, In zs zss -> forall z, In z zs -> (0 <= z < Z.of_nat (length D))%Z).
    { intros zs Hzs z Hz. apply Hr. apply in_concat. eauto. }
    destruct (Forall2_total (fun zs r => get zs = HOk r /\ points_at D zs r) zss) as [pss H].
    { intros zs Hzs. apply Hg. now apply Hr'. }
    exists pss. split.
    + apply hmap_ok. eapply Forall2_imp; [exact H|]. intros ? ? _ [X _]; exact X.
    + eapply Forall2_imp; [exact H|]. intros ? ? _ [_ X]; exact X.
  - intros pss E. destruct (resolve_partitions (length D) ps) as [zss| | |] eqn:Er; try discriminate.
    exists zss. now apply C24_accepted_iff_valid.
Qed.

Lemma points_total {P} (D : list P) : forall zs, (forall z, In z zs -> (0 <= z < Z.of_nat (length D))%Z) -> exists r, points_at D zs r.
Proof.
  intros zs H. apply Forall2_total. intros z Hz. specialize (H z Hz). destruct (nth_error D (Z.to_nat z)) as [p|] eqn:E.
  - exists p. split; [lia|reflexivity].
  - apply nth_error_None in E. lia.
Qed.

Lemma nth_map_combine {F T P} (f : F * T -> P) : forall (xs : list F) (ts : list T) j, length xs = length ts ->
  nth_error (map f (combine xs ts)) j = match nth_error xs j, nth_error ts j with Some x, Some t => Some (f (x, t)) | _, _ => None end.
Proof.
  induction xs as [|x xs IH]; intros [|t ts] [|j] H; cbn in *; try discriminate; try reflexivity. apply IH. lia.
Qed.
Lemma slice_nth {T} : forall (ts : list T) j t, nth_error ts j = Some t -> firstn 1 (skipn j ts) = [t].
Proof. induction ts as [|t' ts IH]; intros [|j] t; cbn; try discriminate; [now intros [= ->]|]. intros H. now apply IH. Qed.

Lemma range_self {P} (D : list P) : points_at D (zrange (length D)) D.
Proof.
  unfold points_at, zrange. assert (G : forall pre l : list P, D = pre ++ l ->
    Forall2 (fun z p => (0 <= z)%Z /\ nth_error D (Z.to_nat z) = Some p) (map Z.of_nat (seq (length pre) (length l))) l).
  { intros pre l. revert pre. induction l as [|p l IH]; intros pre E; cbn; constructor.
    - split; [lia|]. rewrite Nat2Z.id, E, nth_error_app2, Nat.sub_diag by lia. reflexivity.
    - specialize (IH (pre ++ [p])). rewrite app_length in IH. cbn in IH. rewrite Nat.add_1_r in IH. apply IH. now rewrite <- app_assoc. }
  apply (G [] D eq_refl).
Qed.
Lemma points_det {P} (D : list P) : forall zs r r', points_at D zs r -> points_at D zs r' -> r = r'.
Proof.
  intros zs r r' H. revert r'. induction H as [|z p zs r [_ E] _ IH]; intros r' H'; inversion H' as [|? p' ? ? [_ E'] H2]; subst; [reflexivity|].
  rewrite E in E'. injection E' as ->. f_equal. now apply IH.
Qed.

Section Synthetic.
  Context {F T L P : Type} (mk : F -> list T -> P) (to_label : T -> L).
  Variables (seeded : Z -> nat -> list F * list T) (unseeded : nat -> nat -> list F * list T) (classification : bool).
  Hypothesis (Hs : forall s, gives (seeded s)) (Hu : forall k, gives (unseeded k)).
  Definition table (d : list F * list T) : list P := map (fun p => mk (fst p) [snd p]) (combine (fst d) (snd d)).
  Lemma table_length : forall d n, length (fst d) = n -> length (snd d) = n -> length (table d) = n.
  Proof. intros d n H1 H2. unfold table. rewrite map_length, combine_length. lia. Qed.
  Lemma partition_points : forall d n zs, length (fst d) = n -> length (snd d) = n -> (forall z, In z zs -> (0 <= z < Z.of_nat n)%Z) ->
    exists r, create_partition mk d zs = HOk r /\ points_at (table d) zs r.
  Proof.
    intros d n zs H1 H2 Hz. destruct (points_total (table d) zs) as [r Hr]; [now rewrite (table_length d n H1 H2)|].
    exists r. split; [|exact Hr]. unfold create_partition. apply hmap_ok. eapply Forall2_imp; [exact Hr|]. intros z p _ [Hz0 E].
    unfold table in E. rewrite nth_map_combine in E by lia. unfold hget.
    destruct (nth_error (fst d) (Z.to_nat z)) as [x|]; [|discriminate]. destruct (nth_error (snd d) (Z.to_nat z)) as [t|] eqn:Et; [|discriminate].
    cbn [hbind]. rewrite (slice_nth _ _ _ Et). cbn in E. congruence.
  Qed.
  (** the state of a handler once the data [d] were generated *)
  Definition loaded (n : nat) (d : list F * list T) : synthetic F T := {| sy_n := n; sy_raw := Some d |}.
  Lemma step_loaded : forall n d op w o w' h', length (fst d) = n -> length (snd d) = n ->
    sy_step mk to_label seeded unseeded classification op w (loaded n d) = (o, w', h') ->
    h' = loaded n d /\ agrees (table d) (map to_label (snd d)) o.
  Proof.
    intros n d op w o w' h' H1 H2 E. pose proof (table_length d n H1 H2) as Hl.
    destruct op as [| |ps|wn]; cbn [sy_step] in E; unfold sy_datapoints, sy_labels_regression, sy_labels_classification, sy_split, raw_data in E; cbn [sy_raw loaded sy_n] in E.
    - injection E as <- <- <-. split; [reflexivity|]. cbn [agrees].
      destruct (partition_points d n (zrange n) H1 H2) as [r [Er Hr]].
      { intros z Hz. apply in_map_iff in Hz as (i & <- & Hi). apply in_seq in Hi. lia. }
      rewrite Er. f_equal. apply (points_det (table d) (zrange n)); [exact Hr|]. pose proof (range_self (table d)) as Rs. now rewrite Hl in Rs.
    - destruct classification.
      + injection E as <- <- <-. split; reflexivity.
      + injection E as <- <- <-. split; [reflexivity|]. cbn [agrees]. apply hmap_ok.
        pose proof (range_self (snd d)) as Hr. rewrite H2 in Hr. revert Hr. unfold points_at. generalize (zrange n) as zs. generalize (snd d) at 2 4 as ts.
        intros ts zs Hr. induction Hr as [|z t zs ts' [_ Et] _ IH]; cbn [map]; constructor; [|exact IH]. unfold hget. now rewrite Et.
    - injection E as <- <- <-. split; [reflexivity|]. cbn [agrees]. rewrite <- Hl. apply split_generic. intros zs Hz.
      rewrite Hl in Hz. now apply (partition_points d n).
    - injection E as <- <- <-. split; [reflexivity|exact I].
  Qed.
  Lemma run_loaded : forall n d, length (fst d) = n -> length (snd d) = n -> forall ops w os w' h',
    sy_run mk to_label seeded unseeded classification ops w (loaded n d) = (os, w', h') ->
    Forall (agrees (table d) (map to_label (snd d))) os.
  Proof.
    intros n d H1 H2. induction ops as [|op ops IH]; intros w os w' h' E; cbn [sy_run] in E.
    - injection E as <- _ _. constructor.
    - destruct (sy_step mk to_label seeded unseeded classification op w (loaded n d)) as [[o w1] h1] eqn:Es.
      destruct (step_loaded n d op w o w1 h1 H1 H2 Es) as [-> Ho].
      destruct (sy_run mk to_label seeded unseeded classification ops w1 (loaded n d)) as [[os1 w2] h2] eqn:Er.
      injection E as <- _ _. constructor; [exact Ho|]. eapply IH; eauto.
  Qed.
  (** what a fresh handler generates in a world *)
  Definition generated (n : nat) (w : world) : list F * list T :=
    match w_seed w with Some s => seeded s n | None => unseeded (w_draws w) n end.
  Lemma generated_length : forall n w, length (fst (generated n w)) = n /\ length (snd (generated n w)) = n.
  Proof. intros n w. unfold generated. destruct (w_seed w); [apply Hs|apply Hu]. Qed.
  Definition is_world (op : sy_op) : bool := match op with OpWorld _ => true | _ => false end.
  Lemma step_new : forall n op w, is_world op = false -> exists w0,
    sy_step mk to_label seeded unseeded classification op w (new_synthetic n) =
    sy_step mk to_label seeded unseeded classification op w0 (loaded n (generated n w)).
  Proof.
    intros n op w H. eexists {| w_seed := w_seed w; w_draws := match w_seed w with Some _ => w_draws w | None => S (w_draws w) end |}. unfold generated.
    destruct w as [[s|] k]; cbn [w_seed w_draws]; destruct op; try discriminate; cbn; try reflexivity; destruct classification; reflexivity.
  Qed.
  Lemma run_new : forall n ops w os w' h', sy_run mk to_label seeded unseeded classification ops w (new_synthetic n) = (os, w', h') ->
    exists d, length (fst d) = n /\ length (snd d) = n /\ Forall (agrees (table d) (map to_label (snd d))) os /\
      (forall op ops', ops = op :: ops' -> is_world op = false -> d = generated n w).
  Proof.
    intros n. induction ops as [|op ops IH]; intros w os w' h' E.
    - cbn in E. injection E as <- _ _. exists (generated n w). destruct (generated_length n w). split; [assumption|]. split; [assumption|]. split; [constructor|]. intros; discriminate.
    - destruct (is_world op) eqn:Ew.
      + destruct op as [| | |wn]; try discriminate. cbn [sy_run sy_step] in E.
        destruct (sy_run mk to_label seeded unseeded classification ops wn (new_synthetic n)) as [[os1 w2] h2] eqn:Er. injection E as <- _ _.
        destruct (IH _ _ _ _ Er) as (d & H1 & H2 & H3 & _). exists d. repeat split; auto; [constructor; [exact I|exact H3]|].
        intros op ops' [= <- <-]. discriminate.
      + destruct (generated_length n w) as [H1 H2]. exists (generated n w). repeat split; auto.
        destruct (step_new n op w Ew) as [w0 Es]. cbn [sy_run] in E. rewrite Es in E.
        apply (run_loaded n (generated n w) H1 H2 (op :: ops) w0 os w' h'). cbn [sy_run]. exact E.
  Qed.
End Synthetic.

(** all samples once: the parts together are the dataset *)
Lemma points_concat {P} (D : list P) : forall zss pss, Forall2 (points_at D) zss pss -> points_at D (concat zss) (concat pss).
Proof. intros zss pss H. induction H; cbn; [constructor|]. now apply Forall2_app. Qed.
Lemma points_cover {P} (D : list P) : forall zs ps, points_at D zs ps -> Permutation zs (zrange (length D)) -> Permutation ps D.
Proof.
  intros zs ps H Hp. pose proof (range_self D) as Hd.
  assert (G : forall (l l' : list Z), Permutation l l' -> forall r, points_at D l r -> exists r', points_at D l' r' /\ Permutation r r').
  { clear. intros l l' H. induction H; intros r Hr.
    - exists r. split; auto.
    - inversion Hr as [|? p ? r0 Hp H0]; subst. destruct (IHPermutation _ H0) as (r' & Hr' & Hpr). exists (p :: r'). split; [now constructor|now constructor].
    - inversion Hr as [|? p ? r0 Hp H0]; subst. inversion H0 as [|? q ? r1 Hq H1]; subst. exists (q :: p :: r1). split; [repeat constructor; auto; apply Hp || apply Hq|constructor].
    - destruct (IHPermutation1 _ Hr) as (r1 & H1 & P1). destruct (IHPermutation2 _ H1) as (r2 & H2 & P2). exists r2. split; [exact H2|now transitivity r1]. }
  destruct (G _ _ Hp _ H) as (r' & Hr' & Pr). now rewrite (points_det D _ _ _ Hr' Hd) in Pr.
Qed.
