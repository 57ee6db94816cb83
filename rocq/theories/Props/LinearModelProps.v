(** C110: the feedforward models for PyTorch costs. *)
From Coq Require Import String List Reals Bool Arith Lia Lra Psatz.
From Verif.Model Require Import LinearModel.
From Verif.Spec Require Import LinearModelSpec.
Import ListNotations.
Local Open Scope R_scope.

Definition act_fun (name : option string) : R -> R :=
  match activation_layers name with [ReLU] => relu | [Tanh] => tanh | [Sigmoid] => sigmoid | _ => fun x => x end.
Lemma act_forward name rest ps x : forward (activation_layers name ++ rest) ps x = forward rest ps (map (act_fun name) x).
Proof.
  unfold act_fun, activation_layers. destruct name as [a|]; [|cbn; now rewrite map_id].
  destruct (String.eqb a "relu"); [reflexivity|]. destruct (String.eqb a "tanh"); [reflexivity|]. destruct (String.eqb a "sigmoid"); [reflexivity|]. cbn. now rewrite map_id.
Qed.
Lemma stands name f : stands_for name f -> forall x, act_fun name x = f x.
Proof.
  unfold act_fun. intros [[-> H]|[[-> H]|[[-> H]|[-> H]]]] x; cbn; rewrite H.
  - unfold relu, Rmax. destruct (Rle_dec 0 x); reflexivity.
  - unfold tanh, sinh, cosh. pose proof (exp_pos x). pose proof (exp_pos (- x)). field. lra.
  - unfold sigmoid. unfold Rdiv. now rewrite Rmult_1_l.
  - reflexivity.
Qed.

Lemma affine_length w x : List.length (fst w) = List.length (snd w) -> List.length (affine w x) = List.length (fst w).
Proof. intro H. unfold affine. rewrite map_length, combine_length. lia. Qed.
Lemma affine_image w x : List.length (fst w) = List.length (snd w) -> is_affine_image (fst w) (snd w) x (affine w x).
Proof.
  intro H. split; [now apply affine_length|]. intros i Hi. unfold affine.
  pose proof (map_nth (fun p : list R * R => dot (fst p) x + snd p) (combine (fst w) (snd w)) ([], 0) i) as E.
  rewrite (nth_indep _ _ 0) in E by (rewrite map_length, combine_length; lia). rewrite E. rewrite combine_nth by exact H. reflexivity.
Qed.

(** network functions *)
Fixpoint mlp (f g : R -> R) (ws : list (list (list R) * list R)) (x : list R) : list R :=
  match ws with
  | [] => x
  | w :: rest => match rest with [] => map g (affine w x) | _ => mlp f g rest (map f (affine w x)) end
  end.
Lemma mlp_output f g : forall sizes i ws x, fits i sizes ws -> sizes <> [] -> network_output f g ws x (mlp f g ws x).
Proof.
  induction sizes as [|o sizes IH]; intros i ws x F N; [now destruct N|]. destruct ws as [|w ws]; [destruct F|]. destruct F as [[S1 [S2 S3]] F].
  assert (A : is_affine_image (fst w) (snd w) x (affine w x)) by (apply affine_image; lia). destruct w as [W b]. cbn [fst snd] in *.
  destruct ws as [|w' ws].
  - cbn [mlp]. now apply out_last.
  - change (mlp f g ((W, b) :: w' :: ws) x) with (mlp f g (w' :: ws) (map f (affine (W, b) x))). eapply out_hidden; [exact A|]. apply (IH o); [exact F|]. destruct sizes; [destruct F|discriminate].
Qed.
Lemma mlp_length f g : forall sizes i ws x, fits i sizes ws -> sizes <> [] -> List.length (mlp f g ws x) = last sizes 0%nat.
Proof.
  induction sizes as [|o sizes IH]; intros i ws x F N; [now destruct N|]. destruct ws as [|w ws]; [destruct F|]. destruct F as [[S1 [S2 S3]] F].
  destruct ws as [|w' ws].
  - destruct sizes; [|destruct F]. cbn [mlp last]. rewrite map_length, affine_length; lia.
  - destruct sizes as [|o' sizes]; [destruct F|]. change (mlp f g (w :: w' :: ws) x) with (mlp f g (w' :: ws) (map f (affine w x))). change (last (o :: o' :: sizes) 0%nat) with (last (o' :: sizes) 0%nat). apply (IH o); [exact F|discriminate].
Qed.
Lemma mlp_ext f f' g g' : (forall x, f x = f' x) -> (forall x, g x = g' x) -> forall ws x, mlp f g ws x = mlp f' g' ws x.
Proof. intros F G. induction ws as [|w ws IH]; intro x; [reflexivity|]. cbn [mlp]. destruct ws; [now apply map_ext|]. rewrite IH. now rewrite (map_ext _ _ F). Qed.

Lemma forward_mlp a oa : forall hidden i o ws x, fits i (hidden ++ [o]) ws -> List.length x = i ->
  forward (simple_linear_model i hidden o a oa) ws x = Some (mlp (act_fun a) (act_fun oa) ws x).
Proof.
  unfold simple_linear_model. induction hidden as [|h hidden IH]; intros i o ws x F L.
  - destruct ws as [|w ws]; [destruct F|]. cbn [app fits] in F. destruct F as [S F]. destruct ws; [|destruct F]. cbn [hidden_layers app forward mlp].
    rewrite L, Nat.eqb_refl. rewrite <- (app_nil_r (activation_layers oa)), act_forward. reflexivity.
  - destruct ws as [|w ws]; [destruct F|]. cbn [app fits] in F. destruct F as [S F]. specialize (IH h o ws (map (act_fun a) (affine w x)) F). cbn [hidden_layers].
    destruct (hidden_layers h hidden a) as [ls last]. cbn [app forward]. rewrite L, Nat.eqb_refl. rewrite <- app_assoc, act_forward. cbn [app] in IH. rewrite IH.
    + destruct ws; [destruct hidden; destruct F|reflexivity].
    + destruct S as [S1 [_ S3]]. rewrite map_length, affine_length; lia.
Qed.
Lemma forward_refuses a oa hidden i o ws x : List.length x <> i -> forward (simple_linear_model i hidden o a oa) ws x = None.
Proof.
  intro N. apply Nat.eqb_neq in N. unfold simple_linear_model. destruct hidden as [|h hidden]; cbn [hidden_layers].
  - cbn [app forward]. destruct ws; [reflexivity|]. now rewrite N.
  - destruct (hidden_layers h hidden a). cbn [app forward]. destruct ws; [reflexivity|]. now rewrite N.
Qed.

(** Whatever the weights, an input of [input_size] numbers becomes [output_size]
    numbers: affine maps, the hidden activation between them, the output activation
    at the end; any other input is refused. *)
Theorem C110_forward i hidden o a oa f g ws x :
  stands_for a f -> stands_for oa g -> fits i (hidden ++ [o]) ws ->
  (List.length x = i -> exists y, forward (simple_linear_model i hidden o a oa) ws x = Some y /\ network_output f g ws x y /\ List.length y = o)
  /\ (List.length x <> i -> forward (simple_linear_model i hidden o a oa) ws x = None).
Proof.
  intros A O F. split; [|apply forward_refuses]. intro L. eexists. split; [now apply forward_mlp|].
  rewrite (mlp_ext _ f _ g (stands _ _ A) (stands _ _ O)). assert (N : hidden ++ [o] <> []) by (intro E; apply app_eq_nil in E; destruct E; discriminate).
  split; [now apply (mlp_output f g (hidden ++ [o]) i)|]. rewrite (mlp_length f g (hidden ++ [o]) i) by assumption. apply last_last.
Qed.
Lemma network_unique f g : forall ws x y, network_output f g ws x y -> forall y', network_output f g ws x y' -> y = y'.
Proof.
  assert (U : forall W b x z z', is_affine_image W b x z -> is_affine_image W b x z' -> z = z').
  { intros W b x z z' [L1 H1] [L2 H2]. apply (nth_ext _ _ 0 0); [lia|]. intros n Hn. rewrite H1, H2 by lia. reflexivity. }
  induction 1 as [W b x z A|W b w ws x z y A N IH]; intros y' N'; inversion N'; subst.
  - f_equal. eapply U; eassumption.
  - apply IH. match goal with H : is_affine_image W b x ?q |- _ => first [constr_eq q z; fail 1 | rewrite (U _ _ _ _ _ A H)] end. assumption.
Qed.
(** the value is determined by the weights *)
Theorem C110_unique f g ws x y y' : network_output f g ws x y -> network_output f g ws x y' -> y = y'.
Proof. intros H H'. exact (network_unique f g ws x y H y' H'). Qed.
Example C110_forward_case :
  stands_for (Some "relu"%string) relu /\ fits 2 [2; 1]%nat [([[1; 0]; [0; 1]], [0; -1]); ([[1; 1]], [3])]
  /\ forward (simple_linear_model 2 [2%nat] 1 (Some "relu"%string) None) [([[1; 0]; [0; 1]], [0; -1]); ([[1; 1]], [3])] [2; -5] = Some [5].
Proof.
  split; [left; split; [reflexivity|]; intro x; unfold relu, Rmax; destruct (Rle_dec 0 x); reflexivity|].
  split; [repeat split; repeat constructor|]. cbn. do 2 f_equal. unfold relu, Rmax. repeat destruct Rle_dec; lra.
Qed.
Example C110_unique_case : network_output (fun x => x) (fun x => x) [([[2]], [1])] [3] (map (fun x => x) [7]).
Proof. apply out_last. split; [reflexivity|]. intros [|i] H; [|cbn in H; lia]. cbn. lra. Qed.

(** The weights the network has are those of affine maps between consecutive sizes,
    [(inputs + 1) * outputs] numbers each. *)
Lemma shapes_app l l' : parameter_shapes (l ++ l') = parameter_shapes l ++ parameter_shapes l'.
Proof. induction l as [|[i o| | |] l IH]; cbn; now rewrite ?IH. Qed.
Lemma shapes_act a : parameter_shapes (activation_layers a) = [].
Proof. unfold activation_layers. destruct a as [a|]; [|reflexivity]. destruct (String.eqb a "relu"); [reflexivity|]. destruct (String.eqb a "tanh"); [reflexivity|]. now destruct (String.eqb a "sigmoid"). Qed.
Definition of_shape (s : nat * nat * nat) (w : list (list R) * list R) : Prop :=
  let '(rows, columns, biases) := s in
  List.length (fst w) = rows /\ Forall (fun row => List.length row = columns) (fst w) /\ List.length (snd w) = biases.
Lemma concat_length {A} (W : list (list A)) i : Forall (fun row => List.length row = i) W -> List.length (concat W) = (List.length W * i)%nat.
Proof. induction 1 as [|row W H _ IH]; [reflexivity|]. cbn. rewrite app_length, IH, H. reflexivity. Qed.
Theorem C110_parameters i hidden o a oa ws :
  (Forall2 of_shape (parameter_shapes (simple_linear_model i hidden o a oa)) ws <-> fits i (hidden ++ [o]) ws)
  /\ (fits i (hidden ++ [o]) ws -> list_sum (map entries ws) = parameter_count i (hidden ++ [o])).
Proof.
  split.
  - unfold simple_linear_model. revert i ws. induction hidden as [|h hidden IH]; intros i ws.
    + cbn [hidden_layers app parameter_shapes]. rewrite shapes_act. split.
      * intro H. inversion H as [|s w l l' S T]; subst. inversion T; subst. cbn. split; [exact S|exact I].
      * destruct ws as [|w ws]; [intros []|]. cbn [fits]. intros [S F]. destruct ws; [|destruct F]. constructor; [exact S|constructor].
    + cbn [hidden_layers]. specialize (IH h). destruct (hidden_layers h hidden a) as [ls last]. cbn [app parameter_shapes]. rewrite <- app_assoc, shapes_app, shapes_act. cbn [app]. split.
      * intro H. inversion H as [|s w l l' S T]; subst. cbn [fits]. split; [exact S|]. now apply IH.
      * destruct ws as [|w ws]; [intros []|]. cbn [fits]. intros [S F]. constructor; [exact S|]. now apply IH.
  - revert i ws. generalize (hidden ++ [o]). induction l as [|s sizes IH]; intros i ws F; destruct ws as [|w ws]; try destruct F; [reflexivity|].
    cbn [map list_sum fold_right parameter_count]. change (fold_right Nat.add 0%nat (map entries ws)) with (list_sum (map entries ws)). rewrite (IH _ _ H0). destruct H as [S1 [S2 S3]]. unfold entries. rewrite (concat_length _ _ S2), S1, S3. lia.
Qed.
Example C110_parameters_case : parameter_count 4 [3; 2]%nat = 23%nat /\ parameter_shapes (simple_linear_model 4 [3%nat] 2 (Some "tanh"%string) None) = [(3, 4, 3); (2, 3, 2)]%nat.
Proof. split; reflexivity. Qed.

(** Without activations the network is an affine map. *)
Lemma dot_mix t r : forall x y, List.length x = List.length y -> dot r (mix t x y) = (1 - t) * dot r x + t * dot r y.
Proof.
  induction r as [|q r IH]; intros x y L; [cbn; lra|]. destruct x as [|a x], y as [|b y]; try discriminate L; [cbn; lra|].
  specialize (IH x y ltac:(now injection L)). unfold dot, mix in *. cbn in *. rewrite IH. lra.
Qed.
Lemma affine_mix t W b x y : List.length x = List.length y -> affine (W, b) (mix t x y) = mix t (affine (W, b) x) (affine (W, b) y).
Proof.
  intro L. unfold affine. cbn [fst snd]. revert b. induction W as [|r W IH]; intro b; [reflexivity|]. destruct b as [|c b]; [reflexivity|]. unfold mix in *. cbn [combine map fst snd]. rewrite IH. f_equal.
  change (map _ (combine x y)) with (mix t x y). rewrite dot_mix by exact L. lra.
Qed.
Theorem C110_no_activation_affine i hidden o ws t x y fx fy :
  fits i (hidden ++ [o]) ws -> List.length x = i -> List.length y = i ->
  forward (simple_linear_model i hidden o None None) ws x = Some fx -> forward (simple_linear_model i hidden o None None) ws y = Some fy ->
  forward (simple_linear_model i hidden o None None) ws (mix t x y) = Some (mix t fx fy).
Proof.
  intros F Lx Ly Ex Ey. assert (Lm : List.length (mix t x y) = i) by (unfold mix; rewrite map_length, combine_length; lia).
  rewrite forward_mlp in * by assumption. injection Ex as <-. injection Ey as <-. f_equal. clear Lm. revert i F x y Lx Ly. generalize (hidden ++ [o]). assert (A : forall l, map (act_fun None) l = l) by (intro l; apply map_id).
  induction ws as [|w ws IH]; intros sizes i F x y Lx Ly; [reflexivity|]. destruct sizes as [|s sizes]; [destruct F|]. destruct F as [S F]. destruct w as [W b].
  destruct ws as [|w' ws].
  - cbn [mlp]. rewrite !A. apply affine_mix. lia.
  - change (mlp (act_fun None) (act_fun None) ((W, b) :: w' :: ws)) with (fun x => mlp (act_fun None) (act_fun None) (w' :: ws) (map (act_fun None) (affine (W, b) x))). cbv beta.
    rewrite !A. rewrite affine_mix by lia. destruct S as [S1 [_ S3]]. cbn [fst snd] in *.
    apply (IH sizes s); [exact F| |]; rewrite affine_length; cbn; lia.
Qed.
Example C110_no_activation_case : forward (simple_linear_model 1 [1%nat] 1 None None) [([[2]], [1]); ([[3]], [0])] [1] = Some [9].
Proof. cbn. do 2 f_equal. lra. Qed.

(** Any other name for an activation is silently no activation. *)
Theorem C110_unknown_activation i hidden o a oa name :
  name <> "relu"%string -> name <> "tanh"%string -> name <> "sigmoid"%string ->
  simple_linear_model i hidden o (Some name) oa = simple_linear_model i hidden o None oa
  /\ simple_linear_model i hidden o a (Some name) = simple_linear_model i hidden o a None.
Proof.
  intros N1 N2 N3. assert (E : activation_layers (Some name) = activation_layers None) by (cbn; destruct (String.eqb_spec name "relu"); [contradiction|]; destruct (String.eqb_spec name "tanh"); [contradiction|]; destruct (String.eqb_spec name "sigmoid"); [contradiction|]; reflexivity).
  unfold simple_linear_model. rewrite E. split; [|reflexivity]. replace (hidden_layers i hidden (Some name)) with (hidden_layers i hidden None); [reflexivity|].
  revert i. induction hidden as [|h hidden IH]; intro i; [reflexivity|]. cbn [hidden_layers]. rewrite IH, E. reflexivity.
Qed.
Example C110_unknown_case : simple_linear_model 2 [3%nat] 1 (Some "gelu"%string) None = [Linear 2 3; Linear 3 1]. Proof. reflexivity. Qed.

(** The output activation bounds the outputs, whatever the weights. *)
Lemma mlp_last f g ws x z : ws <> [] -> In z (mlp f g ws x) -> exists r, z = g r.
Proof.
  revert x. induction ws as [|w ws IH]; intros x N I; [now destruct N|]. cbn [mlp] in I. destruct ws as [|w' ws]; [|apply (IH (map f (affine w x))); [discriminate|exact I]].
  apply in_map_iff in I. destruct I as (r & <- & _). now exists r.
Qed.
Lemma sigmoid_bounds r : 0 < sigmoid r < 1.
Proof. unfold sigmoid. pose proof (exp_pos (- r)). split; [apply Rdiv_lt_0_compat; lra|]. apply (Rmult_lt_reg_r (1 + exp (- r))); [lra|]. unfold Rdiv. rewrite Rmult_assoc, Rinv_l by lra. lra. Qed.
Lemma tanh_bounds r : -1 < tanh r < 1.
Proof.
  unfold tanh, sinh, cosh. pose proof (exp_pos r). pose proof (exp_pos (- r)).
  replace ((exp r - exp (- r)) / 2 / ((exp r + exp (- r)) / 2)) with ((exp r - exp (- r)) / (exp r + exp (- r))) by (field; lra).
  split; apply (Rmult_lt_reg_r (exp r + exp (- r))); try lra; unfold Rdiv; rewrite Rmult_assoc, Rinv_l by lra; lra.
Qed.
Theorem C110_range i hidden o a ws x y z :
  fits i (hidden ++ [o]) ws -> In z y ->
  (forward (simple_linear_model i hidden o a (Some "sigmoid"%string)) ws x = Some y -> 0 < z < 1)
  /\ (forward (simple_linear_model i hidden o a (Some "tanh"%string)) ws x = Some y -> -1 < z < 1)
  /\ (forward (simple_linear_model i hidden o a (Some "relu"%string)) ws x = Some y -> 0 <= z).
Proof.
  intros F I. assert (W : ws <> []) by (intros ->; destruct hidden; destruct F). 
  assert (L : forall oa, forward (simple_linear_model i hidden o a oa) ws x = Some y -> exists r, z = act_fun oa r).
  { intros oa E. destruct (Nat.eq_dec (List.length x) i) as [Lx|N]; [|rewrite forward_refuses in E by exact N; discriminate]. rewrite forward_mlp in E by assumption. injection E as <-. exact (mlp_last _ _ _ _ _ W I). }
  split; [|split]; intro E; destruct (L _ E) as [r ->]; cbn.
  - apply sigmoid_bounds.
  - apply tanh_bounds.
  - apply Rmax_l.
Qed.
Example C110_range_case : forward (simple_linear_model 1 [] 1 None (Some "relu"%string)) [([[2]], [1])] [-4] = Some [0].
Proof. cbn. do 2 f_equal. unfold relu, Rmax. destruct Rle_dec; lra. Qed.

(** ** argmax and argmin *)
Section arg.
  Variable better : R -> R -> bool.
  Lemma arg_from_spec (le : R -> R -> Prop) : (forall x, le x x) -> (forall x y z, le x y -> le y z -> le x z) ->
    (forall y b, better y b = true -> le b y) -> (forall y b, better y b = false -> le y b) ->
    forall row best k pre, nth_error pre k = Some best -> (forall j v, nth_error pre j = Some v -> le v best) ->
    exists v, nth_error (pre ++ row) (arg_from better best k (List.length pre) row) = Some v /\ forall j w, nth_error (pre ++ row) j = Some w -> le w v.
  Proof.
    intros Refl Trans B1 B2. induction row as [|y row IH]; intros best k pre K M.
    - cbn. rewrite app_nil_r. exists best. split; assumption.
    - cbn [arg_from]. replace (pre ++ y :: row) with ((pre ++ [y]) ++ row) by now rewrite <- app_assoc.
      assert (LP : List.length (pre ++ [y]) = S (List.length pre)) by (rewrite app_length; cbn; lia). rewrite <- LP.
      assert (C : forall j v, nth_error (pre ++ [y]) j = Some v -> nth_error pre j = Some v \/ v = y).
      { intros j v E. destruct (Nat.lt_ge_cases j (List.length pre)); [rewrite nth_error_app1 in E by assumption; now left|]. rewrite nth_error_app2 in E by assumption. destruct (j - List.length pre)%nat as [|n]; [injection E as <-; now right|destruct n; discriminate E]. }
      assert (Kl : (k < List.length pre)%nat) by (apply nth_error_Some; congruence).
      destruct (better y best) eqn:E.
      + apply IH.
        * rewrite nth_error_app2 by lia. now rewrite Nat.sub_diag.
        * intros j v V. destruct (C j v V) as [V'| ->]; [|apply Refl]. apply (Trans _ best); [exact (M _ _ V')|now apply B1].
      + apply IH.
        * now rewrite nth_error_app1.
        * intros j v V. destruct (C j v V) as [V'| ->]; [exact (M _ _ V')|now apply B2].
  Qed.
  (** the same comparisons give the same index *)
  Lemma arg_from_map (f : R -> R) : (forall y b, better (f y) (f b) = better y b) -> forall row best k i, arg_from better (f best) k i (map f row) = arg_from better best k i row.
  Proof. intros H. induction row as [|y row IH]; intros best k i; [reflexivity|]. cbn. rewrite H. destruct (better y best); apply IH. Qed.
End arg.
Lemma nth_some (l : list R) j : (j < List.length l)%nat -> nth_error l j = Some (nth j l 0).
Proof. intro H. now apply nth_error_nth'. Qed.
Theorem C110_argmax row :
  (row = [] -> argmax_row row = None /\ argmin_row row = None)
  /\ (row <> [] -> exists k k', argmax_row row = Some k /\ largest_at row k /\ argmin_row row = Some k' /\ smallest_at row k').
Proof.
  split; [intros ->; split; reflexivity|]. intro N. destruct row as [|y row]; [now destruct N|]. unfold argmax_row, argmin_row, arg_row.
  assert (P1 : forall le : R -> R -> Prop, (forall x, le x x) -> forall j v, nth_error [y] j = Some v -> le v y) by (intros le Refl [|[|j]] v E; cbn in E; try discriminate; injection E as <-; apply Refl).
  destruct (arg_from_spec (fun y best => if Rlt_dec best y then true else false) Rle Rle_refl Rle_trans
    ltac:(intros a b; cbv beta; destruct (Rlt_dec b a); [lra|discriminate]) ltac:(intros a b; cbv beta; destruct (Rlt_dec b a); [discriminate|lra]) row y 0%nat [y] eq_refl (P1 Rle Rle_refl)) as (v & V & M).
  destruct (arg_from_spec (fun y best => if Rlt_dec y best then true else false) Rge Rge_refl Rge_trans
    ltac:(intros a b; cbv beta; destruct (Rlt_dec a b); [lra|discriminate]) ltac:(intros a b; cbv beta; destruct (Rlt_dec a b); [discriminate|lra]) row y 0%nat [y] eq_refl (P1 Rge Rge_refl)) as (v' & V' & M').
  cbn [List.length app] in V, V', M, M'. eexists _, _. split; [reflexivity|]. split; [|split; [reflexivity|]].
  - split; [apply nth_error_Some; congruence|]. intros j Hj. rewrite (nth_error_nth _ _ 0 V). apply (M j). now apply nth_some.
  - split; [apply nth_error_Some; congruence|]. intros j Hj. rewrite (nth_error_nth _ _ 0 V'). apply Rge_le. apply (M' j). now apply nth_some.
Qed.
Example C110_argmax_case : argmax_row [1; 3; 2] = Some 1%nat /\ argmin_row [1; 3; 2] = Some 0%nat.
Proof. unfold argmax_row, argmin_row, arg_row. cbn. repeat destruct Rlt_dec; try lra; split; reflexivity. Qed.

Lemma sigmoid_lt a b : a < b <-> sigmoid a < sigmoid b.
Proof.
  assert (M : forall a b, a < b -> sigmoid a < sigmoid b).
  { clear. intros a b H. unfold sigmoid, Rdiv. rewrite !Rmult_1_l. pose proof (exp_pos (- b)). assert (exp (- b) < exp (- a)) by (apply exp_increasing; lra). apply Rinv_lt_contravar; [apply Rmult_lt_0_compat|]; lra. }
  split; [apply M|]. intro H. destruct (Rlt_le_dec a b) as [L|[L|L]]; [exact L| |subst; lra]. apply M in L. lra.
Qed.
(** A sigmoid at the output does not change the class that is predicted. *)
Theorem C110_argmax_sigmoid i hidden o a ws x y z :
  fits i (hidden ++ [o]) ws ->
  forward (simple_linear_model i hidden o a None) ws x = Some y -> forward (simple_linear_model i hidden o a (Some "sigmoid"%string)) ws x = Some z ->
  argmax_row z = argmax_row y /\ argmin_row z = argmin_row y.
Proof.
  intros F Ey Ez. destruct (Nat.eq_dec (List.length x) i) as [Lx|N]; [|rewrite forward_refuses in Ey by exact N; discriminate].
  rewrite forward_mlp in * by assumption. injection Ey as <-. injection Ez as <-.
  assert (E : mlp (act_fun a) (act_fun (Some "sigmoid"%string)) ws x = map sigmoid (mlp (act_fun a) (act_fun None) ws x)).
  { assert (W : ws <> []) by (intros ->; destruct hidden; destruct F). clear - W. revert x. induction ws as [|w ws IH]; intro x; [now destruct W|]. cbn [mlp]. destruct ws as [|w' ws].
    - cbn. now rewrite map_id.
    - apply IH. discriminate. }
  rewrite E. generalize (mlp (act_fun a) (act_fun None) ws x). intros [|v row]; [split; reflexivity|]. unfold argmax_row, argmin_row, arg_row. cbn [map]. split; f_equal; apply arg_from_map; intros p q.
  - destruct (Rlt_dec q p) as [L|L], (Rlt_dec (sigmoid q) (sigmoid p)) as [L'|L']; try reflexivity; exfalso; [apply L', (proj1 (sigmoid_lt _ _)), L|apply L, (proj2 (sigmoid_lt _ _)), L'].
  - destruct (Rlt_dec p q) as [L|L], (Rlt_dec (sigmoid p) (sigmoid q)) as [L'|L']; try reflexivity; exfalso; [apply L', (proj1 (sigmoid_lt _ _)), L|apply L, (proj2 (sigmoid_lt _ _)), L'].
Qed.
Example C110_argmax_sigmoid_case : forward (simple_linear_model 1 [] 2 None None) [([[2]; [3]], [1; 0])] [4] = Some [9; 12].
Proof. cbn. apply f_equal. replace (2 * 4 + 0 + 1) with 9 by lra. replace (3 * 4 + 0 + 0) with 12 by lra. reflexivity. Qed.

Print Assumptions C110_forward.
Print Assumptions C110_unique.
Print Assumptions C110_parameters.
Print Assumptions C110_no_activation_affine.
Print Assumptions C110_unknown_activation.
Print Assumptions C110_range.
Print Assumptions C110_argmax.
Print Assumptions C110_argmax_sigmoid.
