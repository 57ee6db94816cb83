(** C86: figures of runtime metrics. *)
From Coq Require Import Reals List Bool Arith String Lia ZArith.
From Verif.Model Require Import PyDict History Messages Network Counting Vec Metrics Runner Runtime Display Plotter.
From Verif.Spec Require Import RuntimeSpec QueueSpec PlotterSpec.
From Verif.Proofs Require Import ProgressProofs PlotterProofs.
From Verif.Props Require Import RuntimeProps DisplayProps.
Import ListNotations.
Local Open Scope nat_scope.

Lemma figure_in : forall s m k st p, In (k, (st, p)) (figure s m) <-> fst (fst k) = m /\ exists c, In (k, (c, p)) (ps_lines s) /\ st = marker_style_color c.
Proof.
  intros s m k st p. unfold figure. rewrite in_map_iff. split.
  - intros ([k' [c p']] & E & I). apply filter_In in I. cbn [fst snd] in *. destruct I as [I B]. apply String.eqb_eq in B. injection E as -> <- ->. split; [now symmetry|]. exists c. auto.
  - intros (<- & c & I & ->). exists (k, (c, p)). split; [reflexivity|]. apply filter_In. split; [exact I|]. apply String.eqb_refl.
Qed.
Lemma start_ok : keys_ok p_start.
Proof. split; [constructor|intros ? ? ? []]. Qed.

(** Any messages: a line holds the finite values that arrived for it after its
    metric was announced, in order; there is one line per metric, algorithm and
    trial that has such a value, and no other. *)
Theorem C86_any_queue : forall q m, NoDup (map fst (figure (process_all q) m)) /\ forall k p,
  (exists st, In (k, (st, p)) (figure (process_all q) m)) <-> fst (fst k) = m /\ p = drawable (values k (announced m q)) /\ p <> [].
Proof.
  intros q m. split.
  - destruct (fold_pts (m, "", 0)%string q p_start start_ok) as [[N _] _]. fold (process_all q) in N. unfold figure. rewrite map_map. cbn [fst]. clear - N. induction (ps_lines (process_all q)) as [|e l IH]; [constructor|]. cbn in N. inversion N as [|? ? N1 N2]; subst. cbn [filter].
    destruct (String.eqb m _); [|now apply IH]. cbn. constructor; [|now apply IH]. intros I. apply N1. apply in_map_iff in I. destruct I as (x & E & I). apply filter_In in I. apply in_map_iff. exists x. tauto.
  - intros k p. destruct (fold_pts k q p_start start_ok) as [K P]. fold (process_all q) in K, P. cbn [p_start ps_lines pts_at app figb ps_figs existsb] in P. split.
    + intros (st & I). apply figure_in in I. destruct I as (<- & c & I & _). split; [reflexivity|]. assert (X : exists c, In (k, (c, p)) (ps_lines (process_all q))) by now exists c. apply (pts_in _ _ _ K) in X. destruct X as [X Ne]. split; [|exact Ne]. now rewrite <- X.
    + intros (<- & E & Ne). assert (X : exists c, In (k, (c, p)) (ps_lines (process_all q))) by (apply (pts_in _ _ _ K); split; [now rewrite P|exact Ne]). destruct X as (c & I). exists (marker_style_color c). apply figure_in. split; [reflexivity|]. exists c. auto.
Qed.

Lemma queue_values : forall metas trials q, NoDup (map (fun T => (pt_alg T, pt_trial T)) trials) -> merge (map (messages metas) trials) q ->
  forall T k, In T trials -> snd (fst k) = pt_alg T -> snd k = pt_trial T -> values k q = values k (messages metas T).
Proof.
  intros metas trials q N M T k I E1 E2. apply in_split in I. destruct I as (l1 & l2 & ->). apply (values_merge _ _ k M (map (messages metas) l1) (messages metas T) (map (messages metas) l2)); [now rewrite map_app|].
  intros l' J. rewrite <- map_app in J. apply in_map_iff in J. destruct J as (T' & <- & J). apply values_foreign. rewrite E1, E2. intros X. rewrite map_app in N. cbn [map] in N. apply NoDup_remove_2 in N. apply N. rewrite <- map_app. apply in_map_iff. exists T'. auto.
Qed.
Lemma queue_foreign : forall metas trials q k, merge (map (messages metas) trials) q -> (forall T, In T trials -> (snd (fst k), snd k) <> (pt_alg T, pt_trial T)) -> values k q = [].
Proof.
  intros metas trials q k M H. assert (Z : forall l, In l (map (messages metas) trials) -> values k l = []) by (intros l J; apply in_map_iff in J; destruct J as (T & <- & J); apply values_foreign; now apply H).
  clear H. induction M as [|l1 x l l2 q M IH]; [reflexivity|]. assert (Zx : values k (x :: l) = []) by (apply Z; apply in_app_iff; right; now left). rewrite values_cons in Zx |- *. apply app_eq_nil in Zx. destruct Zx as [-> Zl]. apply IH.
  intros l' J. apply in_app_iff in J. destruct J as [J|[<-|J]]; [|exact Zl|]; apply Z; apply in_app_iff; [now left|right; now right].
Qed.
(** The trials of a benchmark with metrics of different classes: however their
    messages interleave, the figure of a metric has one line per trial, with
    exactly the finite points that this metric sent in that trial, in order. *)
Theorem C86_lines : forall metas trials q i m, NoDup (map fst metas) -> NoDup (map (fun T => (pt_alg T, pt_trial T)) trials) ->
  merge (map (messages metas) trials) q -> nth_error metas i = Some m -> forall k p,
  (exists st, In (k, (st, p)) (figure (process_all q) (fst m))) <->
  exists T, In T trials /\ k = (fst m, pt_alg T, pt_trial T) /\ p = drawable (sent i (pt_points T)) /\ p <> [].
Proof.
  intros metas trials q i m Nm Nt M E k p. rewrite (proj2 (C86_any_queue q (fst m)) k p).
  assert (G : good [] q) by (apply (good_merge _ _ M); apply Forall_forall; intros l J; apply in_map_iff in J; destruct J as (T & <- & _); apply good_trial).
  assert (A : fst (fst k) = fst m -> values k (announced (fst m) q) = values k q) by (intros <-; now apply (good_values q [])).
  split.
  - intros (Ek & Ep & Ne). rewrite (A Ek) in Ep. destruct k as [[m' a] t]. cbn [fst snd] in *. subst m'.
    destruct (in_dec (fun x y : string * nat => ltac:(repeat decide equality)) (a, t) (map (fun T => (pt_alg T, pt_trial T)) trials)) as [J|J].
    + apply in_map_iff in J. destruct J as (T & ET & J). injection ET as <- <-. exists T. split; [exact J|]. split; [reflexivity|]. split; [|exact Ne]. rewrite (queue_values _ _ _ Nt M T (fst m, pt_alg T, pt_trial T) J eq_refl eq_refl) in Ep. unfold messages in Ep. now rewrite (values_trial _ _ _ _ i) in Ep.
    + exfalso. apply Ne. rewrite Ep, (queue_foreign _ _ _ _ M); [reflexivity|]. intros T IT X. apply J. apply in_map_iff. exists T. cbn in X. auto.
  - intros (T & IT & -> & -> & Ne). split; [reflexivity|]. split; [|exact Ne]. rewrite (A eq_refl), (queue_values _ _ _ Nt M T (fst m, pt_alg T, pt_trial T) IT eq_refl eq_refl). unfold messages. now rewrite (values_trial _ _ _ _ i).
Qed.
(** Together with C66: what the line of a trial shows of its run. *)
Theorem C86_run : forall (Q P : Type) t (cost : agent_id -> rcost Q) xopt period (A : alg vec (@ostate Q P)) ms i m F start w
  metas trials q n a k, NoDup (map fst metas) -> NoDup (map (fun T => (pt_alg T, pt_trial T)) trials) -> merge (map (messages metas) trials) q ->
  Forall (fun m => rm_interval m <> 0%Z) ms -> nth_error ms i = Some m -> nth_error metas i = Some n -> reports (agents t) cost xopt m F ->
  In (mkPT a k (snd (run_obs t cost xopt period A ms start w))) trials ->
  let pts := drawable (flat_map (point_at (agents t) (rm_interval m) (al_iters A) F) (r_calls (fst (run_obs t cost xopt period A ms start w)))) in
  pts <> [] -> exists st, In ((fst n, a, k), (st, pts)) (figure (process_all q) (fst n)).
Proof.
  intros Q P t cost xopt period A ms i m F start w metas trials q n a k Nm Nt M FI E1 E2 HR I pts Ne. apply (C86_lines metas trials q i n Nm Nt M E2). eexists. split; [exact I|]. split; [reflexivity|]. cbn [pt_points]. split; [|exact Ne].
  unfold pts. pose proof (C66_points Q P t cost xopt period A ms i m F start w FI E1 HR) as X. destruct (run_obs t cost xopt period A ms start w) as (r & ps). cbn [fst snd]. now rewrite X.
Qed.

(** A trial has the same marker, line style and colour in all figures; two trials
    never look the same when at most 1092 pairs of an algorithm and a trial send
    values, and differ in marker or line style when at most 84 do. *)
Theorem C86_styles : forall q L m m' a a' t t' st st' p p', (forall m a t it v, In (PUpdate m a t it v) q -> In (a, t) L) ->
  In ((m, a, t), (st, p)) (figure (process_all q) m) -> In ((m', a', t'), (st', p')) (figure (process_all q) m') ->
  ((a, t) = (a', t') -> st = st') /\ (List.length L <= 1092 -> st = st' -> (a, t) = (a', t')) /\ (List.length L <= 84 -> fst st = fst st' -> (a, t) = (a', t')).
Proof.
  intros q L m m' a a' t t' st st' p p' HL I I'. destruct (all_colors L q HL) as (N & S & C). apply figure_in in I, I'. destruct I as (_ & c & I & ->), I' as (_ & c' & I' & ->). apply C in I, I'.
  pose proof (NoDup_incl_length N S) as Len. pose proof (color_nth _ _ _ I) as B. pose proof (color_nth _ _ _ I') as B'.
  assert (c < List.length (ps_colors (process_all q)) /\ c' < List.length (ps_colors (process_all q))) as [Lc Lc'] by (split; apply nth_error_Some; congruence).
  destruct (C74_distinguishable c c') as [D84 D1092]. split; [|split].
  - intros E. rewrite E in I. congruence.
  - intros HLen E. assert (c = c') by (apply D1092; [lia|lia|exact E]). congruence.
  - intros HLen E. assert (c = c') by (apply D84; [lia|lia|exact E]). congruence.
Qed.

(** After the queue is shut down, every metric whose first announcement came with
    a path is saved there under its name, with all its lines, once; after Ctrl+C
    nothing is. *)
Theorem C86_saved : forall q, (forall f, In f (files q QueueShutDown) <->
    exists m p, first_path m q = Some p /\ f = (p, (m ++ ".png")%string, figure (process_all q) m)) /\ files q CtrlC = [].
Proof.
  intros q. split; [|reflexivity]. intros f. cbn [files]. unfold saved. destruct (fold_saves q p_start (fun m p H => match H with end)) as [S1 S2]. fold (process_all q) in S1, S2. rewrite in_map_iff. split.
  - intros ([m p] & <- & I). apply filter_In in I. destruct I as [I _]. apply S2 in I. cbn in I. destruct I as [[]|[_ I]]. exists m, p. auto.
  - intros (m & p & E & ->). exists (m, p). split; [reflexivity|]. assert (I : In (m, p) (ps_saves (process_all q))) by (apply S2; right; auto). apply filter_In. split; [exact I|]. cbn [fst]. destruct (has_str m (ps_figs (process_all q))) as [_|X]; [reflexivity|]. exfalso. apply X. eapply S1. exact I.
Qed.
Lemma append_inj : forall s s' c, (s ++ c = s' ++ c)%string -> s = s'.
Proof.
  assert (L : forall s c, String.length (s ++ c) = String.length s + String.length c) by (induction s as [|x s IH]; intros c; cbn; [reflexivity|now rewrite IH]).
  induction s as [|x s IH]; intros [|x' s'] c E; cbn in E; [reflexivity|exfalso|exfalso|].
  - apply (f_equal String.length) in E. cbn in E. rewrite L in E. lia.
  - apply (f_equal String.length) in E. cbn in E. rewrite L in E. lia.
  - injection E as -> E. f_equal. now apply (IH s' c).
Qed.
Theorem C86_saved_once : forall q, NoDup (map fst (files q QueueShutDown)).
Proof.
  intros q. cbn [files]. unfold saved. rewrite map_map. cbn [fst].
  assert (N : NoDup (map fst (ps_saves (process_all q))) /\ forall m p, In (m, p) (ps_saves (process_all q)) -> In m (ps_figs (process_all q))).
  { unfold process_all. assert (B : NoDup (map fst (ps_saves p_start)) /\ forall m p, In (m, p) (ps_saves p_start) -> In m (ps_figs p_start)) by (split; [constructor|intros ? ? []]). revert B. generalize p_start.
    induction q as [|x q IH]; intros s [B1 B2]; [auto|]. cbn [fold_left]. apply IH. destruct (process_saves x s B2) as [P _]. split; [|exact P]. clear P. destruct x as [m0 sv|m0 a t it v|]; cbn [process].
    - unfold create_figure. destruct (has_str m0 (ps_figs s)) as [I|I]; [exact B1|]. cbn [ps_saves]. destruct sv as [p0|]; [|exact B1]. rewrite map_app. cbn [map fst].
      assert (Nf : ~ In m0 (map fst (ps_saves s))) by (intros J; apply I; apply in_map_iff in J; destruct J as ([m p] & <- & J); eapply B2; exact J). clear - B1 Nf.
      induction (map fst (ps_saves s)) as [|y l IH]; cbn; [constructor; [auto|constructor]|]. inversion B1 as [|? ? N1 N2]; subst. constructor; [rewrite in_app_iff; cbn; intros [J|[J|[]]]; [contradiction|apply Nf; now left]|]. apply IH; [exact N2|]. intros J. apply Nf. now right.
    - unfold update. destruct (existsb _ _); [destruct v; [destruct (has_line _ _)|..]|]; exact B1.
    - exact B1. }
  destruct N as [N _]. induction (ps_saves (process_all q)) as [|[m p] l IH]; [constructor|]. cbn in N. inversion N as [|? ? N1 N2]; subst. cbn [filter fst]. destruct (existsb _ _); [|now apply IH]. cbn [map fst snd]. constructor; [|now apply IH].
  intros J. apply in_map_iff in J. destruct J as ([m' p'] & E & J). apply filter_In in J. destruct J as [J _]. cbn [fst snd] in E. injection E as _ E. apply append_inj in E. subst m'. apply N1. apply in_map_iff. exists (m, p'). auto.
Qed.
(** In a benchmark all trials announce the same paths. *)
Theorem C86_paths : forall metas trials q m p, NoDup (map fst metas) -> merge (map (messages metas) trials) q -> trials <> [] -> In m metas ->
  (snd m = Some p <-> In (p, (fst m ++ ".png")%string, figure (process_all q) (fst m)) (files q QueueShutDown)).
Proof.
  intros metas trials q m p Nm M Ne Im.
  assert (Q : forall x, In x q <-> exists T, In T trials /\ In x (messages metas T)).
  { intros x. pose proof (merge_perm _ _ M) as Pm. split.
    - intros I. apply (Permutation.Permutation_in _ (Permutation.Permutation_sym Pm)) in I. apply in_concat in I. destruct I as (l & J & I). apply in_map_iff in J. destruct J as (T & <- & J). exists T. auto.
    - intros (T & J & I). apply (Permutation.Permutation_in _ Pm). apply in_concat. exists (messages metas T). split; [now apply in_map|exact I]. }
  assert (Pth : forall p', In (PInit (fst m) p') q -> p' = snd m).
  { intros p' I. apply Q in I. destruct I as (T & _ & I). unfold messages, trial_messages in I. apply in_app_iff in I. destruct I as [I|I]; apply in_map_iff in I.
    - destruct I as (m' & E & I). injection E as E1 <-. f_equal. apply In_nth_error in I, Im. destruct I as (j & I), Im as (j' & Im). rewrite NoDup_nth_error in Nm.
      assert (j = j') by (apply Nm; [rewrite map_length; apply nth_error_Some; congruence|rewrite (map_nth_error fst _ _ I), (map_nth_error fst _ _ Im); congruence]). congruence.
    - destruct I as (x & E & _). destruct (nth_error metas _); discriminate. }
  assert (Ex : In (PInit (fst m) (snd m)) q).
  { destruct trials as [|T trials]; [congruence|]. apply Q. exists T. split; [now left|]. unfold messages, trial_messages. apply in_app_iff. left. apply in_map_iff. exists m. auto. }
  assert (F : first_path (fst m) q = snd m).
  { clear - Pth Ex. induction q as [|x q IH]; [contradiction|]. destruct x as [m0 sv|m0 a t it v|]; cbn [first_path].
    - destruct (String.eqb_spec (fst m) m0) as [<-|D]; [apply Pth; now left|]. apply IH; [intros; apply Pth; now right|]. destruct Ex as [Ex|Ex]; [congruence|exact Ex].
    - apply IH; [intros; apply Pth; now right|]. destruct Ex as [Ex|Ex]; [discriminate|exact Ex].
    - apply IH; [intros; apply Pth; now right|]. destruct Ex as [Ex|Ex]; [discriminate|exact Ex]. }
  rewrite (proj1 (C86_saved q)). split.
  - intros E. exists (fst m), p. split; [congruence|reflexivity].
  - intros (m' & p' & E & X). assert (p = p' /\ (fst m ++ ".png" = m' ++ ".png")%string) as [-> Y] by (split; congruence). apply append_inj in Y. subst m'. congruence.
Qed.

(** Two trials of one algorithm, two metrics, one point that cannot be drawn. *)
Definition two_metas : list (string * option string) := [("Loss", Some "plots"); ("Regret", None)]%string.
Definition two_trials : list ptrial := [mkPT "A" 0 [(0, 0, Fin 1); (1, 0, NaN)]; mkPT "A" 1 [(0, 0, Fin 2); (1, 0, Fin 3)]]%string.
Example C86_case : exists q, merge (map (messages two_metas) two_trials) q /\ NoDup (map fst two_metas) /\ NoDup (map (fun T => (pt_alg T, pt_trial T)) two_trials) /\
  files q QueueShutDown = [("plots", "Loss.png", [(("Loss", "A", 1), ((0, 0, 0), [(0, 2%R)])); (("Loss", "A", 0), ((1, 0, 1), [(0, 1%R)]))])]%string /\
  figure (process_all q) "Regret" = [(("Regret", "A", 1), ((0, 0, 0), [(0, 3%R)]))]%string.
Proof.
  exists ([PInit "Loss" (Some "plots"); PInit "Loss" (Some "plots"); PInit "Regret" None; PInit "Regret" None; PUpdate "Loss" "A" 1 0 (Fin 2); PUpdate "Regret" "A" 1 0 (Fin 3); PUpdate "Loss" "A" 0 0 (Fin 1); PUpdate "Regret" "A" 0 0 NaN])%string.
  split; [|split; [|split; [|split; reflexivity]]].
  - unfold two_trials, messages. cbn.
    apply (merge_take [] _ _ [_]). apply (merge_take [_] _ _ []). apply (merge_take [] _ _ [_]). apply (merge_take [_] _ _ []). apply (merge_take [_] _ _ []). apply (merge_take [_] _ _ []). apply (merge_take [] _ _ [_]). apply (merge_take [] _ _ [_]). constructor. intros l [<-|[<-|[]]]; reflexivity.
  - repeat (constructor; [cbn; intuition discriminate|]). constructor.
  - repeat (constructor; [cbn; intuition discriminate|]). constructor.
Qed.

(** Two metrics of one class (say, with different intervals or paths) share one
    figure: their points are mixed in one line, and only the first path is used. *)
Theorem C86_one_figure_per_metric_refuted : ~ (forall metas trials q i m, NoDup (map (fun T => (pt_alg T, pt_trial T)) trials) ->
  merge (map (messages metas) trials) q -> nth_error metas i = Some m -> forall T st p, In T trials ->
  In ((fst m, pt_alg T, pt_trial T), (st, p)) (figure (process_all q) (fst m)) -> p = drawable (sent i (pt_points T))).
Proof.
  intro H. pose (T := mkPT "A" 0 [(0, 0, Fin 1); (1, 0, Fin 2)]%string). pose (metas := [("Loss", Some "a"); ("Loss", Some "b")]%string).
  specialize (H metas [T] (messages metas T) 0 ("Loss", Some "a")%string).
  assert (X : [(0, 1%R); (0, 2%R)] = [(0, 1%R)]); [|discriminate]. eapply (H _ _ eq_refl T); [now left|]. cbn. left. reflexivity.
  Unshelve.
  - constructor; [intros []|constructor].
  - cbn. do 4 apply (merge_take [] _ _ []). constructor. intros l [<-|[]]. reflexivity.
Qed.
Theorem C86_second_path_refuted : ~ (forall metas trials q m p, merge (map (messages metas) trials) q -> trials <> [] -> In m metas -> snd m = Some p ->
  exists f, In f (files q QueueShutDown) /\ fst (fst f) = p).
Proof.
  intro H. pose (T := mkPT "A" 0 [] %string). pose (metas := [("Loss", Some "a"); ("Loss", Some "b")]%string).
  destruct (H metas [T] (messages metas T) ("Loss", Some "b")%string "b"%string) as (f & I & E); [|discriminate|right; now left|reflexivity|].
  - cbn. do 2 apply (merge_take [] _ _ []). constructor. intros l [<-|[]]. reflexivity.
  - cbn in I. destruct I as [<-|[]]. discriminate.
Qed.
Print Assumptions C86_any_queue.
Print Assumptions C86_lines.
Print Assumptions C86_run.
Print Assumptions C86_styles.
Print Assumptions C86_saved.
Print Assumptions C86_saved_once.
Print Assumptions C86_paths.
Print Assumptions C86_one_figure_per_metric_refuted.
Print Assumptions C86_second_path_refuted.
