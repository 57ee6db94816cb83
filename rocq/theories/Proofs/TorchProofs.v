From Coq Require Import Reals List Bool Arith ZArith Permutation Lia Lra.
From Verif.Model Require Import Batch Vec TorchCost.
From Verif.Spec Require Import EmpiricalSpec TorchSpec.
From Verif.Proofs Require Import EmpiricalProofs.
Import ListNotations.
Open Scope nat_scope.

(** *** Splitting *)
Lemma split_sizes_ok : forall sizes x, length x = fold_right Nat.add 0 sizes -> concat (split_sizes x sizes) = x /\ map (@length R) (split_sizes x sizes) = sizes.
Proof.
  induction sizes as [|k sizes IH]; intros x H; cbn [split_sizes concat map fold_right] in *; [destruct x; [auto|discriminate]|].
  destruct (IH (skipn k x)) as [I1 I2]; [rewrite skipn_length; lia|]. rewrite I1, firstn_skipn, I2, firstn_length. split; [reflexivity|]. f_equal. lia.
Qed.
Lemma split_sizes_concat : forall ps, split_sizes (concat ps) (map (@length R) ps) = ps.
Proof.
  induction ps as [|p ps IH]; cbn [concat map split_sizes]; [reflexivity|]. rewrite firstn_app, Nat.sub_diag, firstn_all, firstn_O, app_nil_r.
  rewrite skipn_app, skipn_all, Nat.sub_diag. cbn [app skipn]. now rewrite IH.
Qed.
Lemma length_concat : forall (ps : list (list R)), length (concat ps) = fold_right Nat.add 0 (map (@length R) ps).
Proof. induction ps as [|p ps IH]; cbn; [reflexivity|]. now rewrite app_length, IH. Qed.

(** *** Chunks *)
Section Chunks.
  Context {A : Type}.
  Lemma skip_add : forall m k (l : list A), skipn (k + m) l = skipn k (skipn m l).
  Proof. induction m as [|m IH]; intros k l; [now rewrite Nat.add_0_r|]. rewrite Nat.add_succ_r. destruct l; [now rewrite !skipn_nil|]. apply IH. Qed.
  Lemma chunk_concat : forall k (l : list A) q a, concat (map (fun i => firstn k (skipn (i * k) l)) (seq a q)) = firstn (q * k) (skipn (a * k) l).
  Proof.
    intros k l. induction q as [|q IH]; intros a; cbn [seq map concat]; [reflexivity|].
    rewrite IH. replace (S a * k) with (k + a * k) by lia. rewrite skip_add.
    replace (S q * k) with (k + q * k) by lia. rewrite <- (firstn_skipn k (firstn (k + q * k) (skipn (a * k) l))).
    rewrite firstn_firstn, Nat.min_l by lia. f_equal. rewrite skipn_firstn_comm. f_equal. lia.
  Qed.
  Lemma ceil_div : forall n k, 0 < k -> n <= (n + k - 1) / k * k /\ forall i, i < (n + k - 1) / k -> i * k < n.
  Proof.
    intros n k Hk. pose proof (Nat.div_mod (n + k - 1) k ltac:(lia)) as E. pose proof (Nat.mod_upper_bound (n + k - 1) k ltac:(lia)) as B. split; [lia|].
    intros i Hi. assert ((i + 1) * k <= (n + k - 1) / k * k) by (apply Nat.mul_le_mono_r; lia). lia.
  Qed.
  Lemma chunks_ok : forall m (l : list A), (0 < m)%Z -> exists cs, chunks m l = Some cs /\ concat cs = l /\ (forall c, In c cs -> c <> [] /\ length c <= Z.to_nat m) /\
    (forall i c, nth_error cs i = Some c -> c = firstn (Z.to_nat m) (skipn (i * Z.to_nat m) l)) /\ length cs = (length l + Z.to_nat m - 1) / Z.to_nat m.
  Proof.
    intros m l Hm. unfold chunks. destruct (Z.eqb_spec m 0); [lia|]. destruct (Z.ltb_spec m 0); [lia|]. set (k := Z.to_nat m). assert (Hk : 0 < k) by lia.
    destruct (ceil_div (length l) k Hk) as [C1 C2]. eexists. split; [reflexivity|]. split; [|split; [|split]].
    - rewrite chunk_concat. cbn [Nat.mul skipn]. apply firstn_all2. exact C1.
    - intros c I. apply in_map_iff in I as (i & <- & I). apply in_seq in I. split; [|rewrite firstn_length; lia].
      intros E. apply (f_equal (@length A)) in E. rewrite firstn_length, skipn_length in E. cbn in E. specialize (C2 i ltac:(lia)). lia.
    - intros i c E. rewrite nth_error_map in E. destruct (nth_error (seq 0 _) i) as [j|] eqn:Ej; [|discriminate]. injection E as <-.
      assert (Hi : i < (length l + k - 1) / k) by (rewrite <- (seq_length ((length l + k - 1) / k) 0); apply nth_error_Some; congruence).
      rewrite (nth_error_nth' _ 0) in Ej by (now rewrite seq_length). injection Ej as <-. rewrite seq_nth by assumption. reflexivity.
    - now rewrite map_length, seq_length.
  Qed.
  Lemma chunks_map : forall {B} (f : A -> B) m (l : list A), chunks m (map f l) = match chunks m l with Some cs => Some (map (map f) cs) | None => None end.
  Proof.
    intros B f m l. unfold chunks. destruct (m =? 0)%Z; [reflexivity|]. destruct (m <? 0)%Z; [reflexivity|]. f_equal. rewrite map_length, map_map. apply map_ext. intros i.
    now rewrite skipn_map, firstn_map.
  Qed.
End Chunks.

(** *** Looking samples up *)
Lemma pygets_names : forall {S} (D : list S) l B, pygets D l = Some B <-> names D l B.
Proof.
  intros S D. induction l as [|i l IH]; intros B; cbn [pygets].
  - split; [intros [= <-]; constructor|intros H; inversion H; reflexivity].
  - split.
    + destruct (pyget D i) as [a|] eqn:E; [|discriminate]. destruct (pygets D l) as [r|]; [|discriminate]. intros [= <-]. constructor; [|now apply IH].
      unfold pyget in E. destruct ((- Z.of_nat (length D) <=? i) && (i <? Z.of_nat (length D)))%Z eqn:Ei; [|discriminate]. apply andb_true_iff in Ei as [E1 E2]. apply Z.leb_le in E1. apply Z.ltb_lt in E2. auto.
    + intros H. inversion H as [|? a ? r [Hi Ha] Hr]; subst. apply IH in Hr. rewrite Hr. unfold pyget.
      replace ((- Z.of_nat (length D) <=? i) && (i <? Z.of_nat (length D)))%Z with true by (symmetry; apply andb_true_iff; split; [apply Z.leb_le|apply Z.ltb_lt]; lia). now rewrite Ha.
Qed.
Lemma names_total : forall {S} (D : list S) l, indexable (length D) l -> exists B, names D l B.
Proof.
  intros S D. induction l as [|i l IH]; intros H; [exists []; constructor|]. destruct IH as [B HB]; [intros j J; apply H; now right|].
  pose proof (H i (or_introl eq_refl)) as Hi. assert (L : Z.to_nat (i mod Z.of_nat (length D)) < length D) by (pose proof (Z.mod_pos_bound i (Z.of_nat (length D)) ltac:(lia)); lia).
  apply nth_error_Some in L. destruct (nth_error D (Z.to_nat (i mod Z.of_nat (length D)))) as [a|] eqn:E; [|congruence]. exists (a :: B). constructor; auto.
Qed.
Lemma names_indexable : forall {S} (D : list S) l B, names D l B -> indexable (length D) l.
Proof. intros S D l B H. induction H as [|i a l B [Hi _] _ IH]; intros j []; subst; auto. Qed.
Lemma names_length : forall {S} (D : list S) l B, names D l B -> length l = length B.
Proof. intros S D l B H. induction H; cbn; auto. Qed.
Lemma names_range : forall {S} (D : list S), names D (zs (seq 0 (length D))) D.
Proof.
  intros S D. assert (G : forall (E : list S) a, (forall i p, nth_error E i = Some p -> nth_error D (a + i) = Some p) -> a + length E <= length D -> names D (zs (seq a (length E))) E).
  { induction E as [|p E IH]; intros a H L; cbn [length seq zs map]; [constructor|]. cbn in L. constructor; [|apply IH; [intros i q Hq; replace (Datatypes.S a + i) with (a + Datatypes.S i) by lia; now apply H|lia]].
    split; [lia|]. rewrite Z.mod_small by lia. rewrite Nat2Z.id, <- (Nat.add_0_r a). now apply H. }
  apply G; [auto|lia].
Qed.

(** *** Means over chunks *)
Local Open Scope R_scope.
Lemma weighted_total : forall {S} (f : list S -> R) (g : S -> R) cs a, (forall c, In c cs -> c <> [] -> f c = rmean (map g c)) -> (forall c, In c cs -> c <> []) ->
  fold_left (fun a B => a + f B * INR (length B)) cs a = a + rsum (map g (concat cs)).
Proof.
  intros S f g. induction cs as [|c cs IH]; intros a Hf Hn; cbn [fold_left concat map]; [rewrite rsum_nil; ring|].
  rewrite (IH _ (fun c' I => Hf c' (or_intror I)) (fun c' I => Hn c' (or_intror I))). rewrite map_app. assert (E : rsum (map g c ++ map g (concat cs)) = rsum (map g c) + rsum (map g (concat cs))).
  { induction (map g c) as [|y l IHl]; cbn [app]; [rewrite rsum_nil; ring|]. rewrite !rsum_cons, IHl. ring. }
  rewrite E, (Hf c) by (try apply Hn; now left). unfold rmean. rewrite map_length. assert (INR (length c) <> 0) by (pose proof (Hn c (or_introl eq_refl)); apply not_0_INR; destruct c; [congruence|discriminate]). field. assumption.
Qed.
Lemma nth_ladd : forall a b j, length a = length b -> nth j (ladd a b) 0 = nth j a 0 + nth j b 0.
Proof. unfold ladd. induction a as [|x a IH]; intros [|y b] j H; cbn in *; try discriminate; [destruct j; ring|]. destruct j; [reflexivity|]. apply IH. lia. Qed.
Lemma nth_lscal : forall c a j, nth j (lscal c a) 0 = c * nth j a 0.
Proof. unfold lscal. induction a as [|x a IH]; intros j; cbn; [destruct j; ring|]. destruct j; [reflexivity|]. apply IH. Qed.
Lemma ladd_length : forall a b, length a = length b -> length (ladd a b) = length a.
Proof. intros a b H. unfold ladd. rewrite map_length, combine_length. lia. Qed.
Lemma add_scaled_shape : forall w acc gs, map (@length R) gs = map (@length R) acc -> map (@length R) (add_scaled w acc gs) = map (@length R) acc.
Proof.
  intros w. unfold add_scaled. induction acc as [|a acc IH]; intros [|g gs] H; cbn [combine map fst snd] in *; try discriminate; [reflexivity|]. injection H as H1 H2. rewrite IH by assumption.
  rewrite ladd_length; [reflexivity|]. unfold lscal. now rewrite map_length.
Qed.
Lemma concat_add_scaled : forall w acc gs, map (@length R) gs = map (@length R) acc -> forall j, nth j (concat (add_scaled w acc gs)) 0 = nth j (concat acc) 0 + w * nth j (concat gs) 0.
Proof.
  intros w. unfold add_scaled. induction acc as [|a acc IH]; intros [|g gs] H j; cbn [combine map concat fst snd] in *; try discriminate; [cbn; destruct j; ring|].
  injection H as H1 H2. assert (L : length (ladd a (lscal w g)) = length a) by (apply ladd_length; unfold lscal; now rewrite map_length).
  destruct (lt_dec j (length a)) as [Hj|Hj].
  - rewrite !app_nth1 by lia. rewrite nth_ladd by (unfold lscal; now rewrite map_length). now rewrite nth_lscal.
  - rewrite !app_nth2 by lia. rewrite L, H1. now apply IH.
Qed.
Lemma zeros_shape : forall ps, map (@length R) (zeros_like ps) = map (@length R) ps.
Proof. intros ps. unfold zeros_like. rewrite map_map. apply map_ext. intros. apply map_length. Qed.
Lemma nth_zeros : forall ps j, nth j (concat (zeros_like ps)) 0 = 0.
Proof.
  intros ps j. assert (G : forall y, In y (concat (zeros_like ps)) -> y = 0).
  { intros y I. apply in_concat in I as (l & I & J). apply in_map_iff in I as (p & <- & _). now apply in_map_iff in J as (? & <- & _). }
  destruct (nth_in_or_default j (concat (zeros_like ps)) 0) as [I|E]; auto.
Qed.
Lemma rmean_all : forall (l : list R), l <> [] -> rsum l = INR (length l) * rmean l.
Proof. intros l H. unfold rmean. assert (INR (length l) <> 0) by (apply not_0_INR; destruct l; [congruence|discriminate]). field. assumption. Qed.
Lemma grads_fold : forall {S} (sizes : list nat) (gr : list S -> list (list R)) (g : S -> list (list R)) inv cs acc,
  map (@length R) acc = sizes -> (forall c, In c cs -> c <> [] /\ map (@length R) (gr c) = sizes /\ forall j, nth j (concat (gr c)) 0 = rmean (map (fun s => nth j (concat (g s)) 0) c)) ->
  let r := fold_left (fun acc B => add_scaled (INR (length B) * inv) acc (gr B)) cs acc in
  map (@length R) r = sizes /\ forall j, nth j (concat r) 0 = nth j (concat acc) 0 + inv * rsum (map (fun s => nth j (concat (g s)) 0) (concat cs)).
Proof.
  intros S sizes gr g inv. induction cs as [|c cs IH]; intros acc Ha Hc; cbn [fold_left concat map].
  - split; [exact Ha|]. intros j. rewrite rsum_nil. ring.
  - destruct (Hc c (or_introl eq_refl)) as (N & Sh & M). assert (E : map (@length R) (gr c) = map (@length R) acc) by congruence.
    destruct (IH (add_scaled (INR (length c) * inv) acc (gr c))) as [I1 I2]; [rewrite add_scaled_shape; assumption|intros; apply Hc; now right|].
    split; [exact I1|]. intros j. rewrite I2, concat_add_scaled, M by assumption. rewrite map_app.
    assert (Ea : rsum (map (fun s => nth j (concat (g s)) 0) c ++ map (fun s => nth j (concat (g s)) 0) (concat cs)) = rsum (map (fun s => nth j (concat (g s)) 0) c) + rsum (map (fun s => nth j (concat (g s)) 0) (concat cs))).
    { induction (map (fun s => nth j (concat (g s)) 0) c) as [|y l IHl]; cbn [app]; [rewrite rsum_nil; ring|]. rewrite !rsum_cons, IHl. ring. }
    rewrite Ea, (rmean_all (map _ c)) by (destruct c; [congruence|discriminate]). rewrite map_length. ring.
Qed.
