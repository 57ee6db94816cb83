From Coq Require Import Reals List Bool Arith String Lia.
From Verif.Model Require Import Metrics Runtime Display Plotter.
From Verif.Spec Require Import RuntimeSpec QueueSpec PlotterSpec.
Import ListNotations.
Local Open Scope nat_scope.

Lemma pkeyb_spec : forall a b, reflect (a = b) (pkeyb a b).
Proof.
  intros [[m a] t] [[m' a'] t']. unfold pkeyb. cbn [fst snd]. destruct (String.eqb_spec m m'); cbn [andb]; [|constructor; congruence].
  destruct (String.eqb_spec a a'); cbn [andb]; [|constructor; congruence]. destruct (Nat.eqb_spec t t'); constructor; congruence.
Qed.
Lemma skeyb_spec : forall a b, reflect (a = b) (skeyb a b).
Proof.
  intros [a t] [a' t']. unfold skeyb. cbn [fst snd]. destruct (String.eqb_spec a a'); cbn [andb]; [|constructor; congruence]. destruct (Nat.eqb_spec t t'); constructor; congruence.
Qed.
Lemma has_str : forall m l, reflect (In m l) (existsb (String.eqb m) l).
Proof.
  intros m l. destruct (existsb (String.eqb m) l) eqn:E; constructor.
  - apply existsb_exists in E. destruct E as (x & I & E). apply String.eqb_eq in E. now subst.
  - intros I. assert (existsb (String.eqb m) l = true); [|congruence]. apply existsb_exists. exists m. split; [exact I|apply String.eqb_refl].
Qed.

(** *** Points of a line *)
Fixpoint pts_at (k : pkey) (l : list (pkey * pline)) : list (nat * R) :=
  match l with [] => [] | (k', (_, p)) :: l => if pkeyb k k' then p else pts_at k l end.
Definition keys_ok (s : pstate) : Prop := NoDup (map fst (ps_lines s)) /\ forall k c p, In (k, (c, p)) (ps_lines s) -> p <> [].
Lemma has_line_in : forall k l, reflect (In k (map fst l)) (has_line k l).
Proof.
  intros k l. unfold has_line. induction l as [|[k' e] l IH]; cbn; [constructor; auto|]. destruct (pkeyb_spec k k') as [->|N]; cbn; [constructor; now left|].
  destruct IH as [I|I]; constructor; [now right|]. intros [<-|J]; [now apply N|now apply I].
Qed.
Lemma append_keys : forall k p l, map fst (append_point k p l) = map fst l.
Proof. intros k p l. induction l as [|[k' [c q]] l IH]; cbn; [reflexivity|]. destruct (pkeyb k k'); cbn; congruence. Qed.
Lemma append_pts : forall k k' p l, In k (map fst l) -> pts_at k' (append_point k p l) = pts_at k' l ++ (if pkeyb k' k then [p] else []).
Proof.
  intros k k' p l. induction l as [|[k0 [c q]] l IH]; intros I; [contradiction|]. cbn [append_point]. destruct (pkeyb_spec k k0) as [->|N]; cbn [pts_at].
  - destruct (pkeyb_spec k' k0); [reflexivity|now rewrite app_nil_r].
  - destruct I as [I|I]; [cbn in I; congruence|]. rewrite IH by exact I. destruct (pkeyb_spec k' k0) as [->|N2]; [|reflexivity]. destruct (pkeyb_spec k0 k); [congruence|now rewrite app_nil_r].
Qed.
Lemma append_in : forall k p l k' c q, In (k', (c, q)) (append_point k p l) -> exists q', In (k', (c, q')) l /\ (q = q' \/ q = q' ++ [p]).
Proof.
  intros k p l. induction l as [|[k0 [c0 q0]] l IH]; intros k' c q I; [contradiction|]. cbn [append_point] in I. destruct (pkeyb k k0).
  - destruct I as [E|I]; [|exists q; split; [now right|auto]]. injection E as <- <- <-. exists q0. split; [now left|auto].
  - destruct I as [E|I]; [injection E as <- <- <-; exists q0; split; [now left|auto]|]. destruct (IH _ _ _ I) as (q' & J & H). exists q'. split; [now right|exact H].
Qed.
Lemma pts_absent : forall k l, ~ In k (map fst l) -> pts_at k l = [].
Proof. intros k l. induction l as [|[k' [c p]] l IH]; intros N; [reflexivity|]. cbn [pts_at]. destruct (pkeyb_spec k k') as [->|D]; [exfalso; apply N; now left|]. apply IH. intros I. apply N. now right. Qed.
Lemma pts_snoc : forall k k' e l, ~ In k (map fst l) -> pts_at k' (l ++ [(k, e)]) = pts_at k' l ++ (if pkeyb k' k then snd e else []).
Proof.
  intros k k' [c p] l. induction l as [|[k0 [c0 p0]] l IH]; intros N; cbn [app pts_at]; [destruct (pkeyb k' k); reflexivity|].
  destruct (pkeyb_spec k' k0) as [->|D].
  - destruct (pkeyb_spec k0 k) as [->|]; [exfalso; apply N; now left|now rewrite app_nil_r].
  - apply IH. intros I. apply N. now right.
Qed.
Lemma pts_in : forall s k p, keys_ok s -> (exists c, In (k, (c, p)) (ps_lines s)) <-> pts_at k (ps_lines s) = p /\ p <> [].
Proof.
  intros s k p [N P]. split.
  - intros (c & I). split; [|exact (P _ _ _ I)]. clear P. induction (ps_lines s) as [|[k0 [c0 p0]] l IH]; [contradiction|]. cbn [pts_at]. cbn in N. inversion N as [|? ? N1 N2]; subst.
    destruct I as [E|I]; [injection E as -> -> ->; destruct (pkeyb_spec k k); congruence|]. destruct (pkeyb_spec k k0) as [->|D]; [|now apply IH]. exfalso. apply N1. apply in_map_iff. exists (k0, (c, p)). auto.
  - intros [E Ne]. clear P N. induction (ps_lines s) as [|[k0 [c0 p0]] l IH]; [cbn in E; congruence|]. cbn [pts_at] in E. revert E. destruct (pkeyb_spec k k0) as [->|D]; intros E; [exists c0; left; now rewrite E|]. destruct (IH E) as (c & I). exists c. now right.
Qed.

Definition figb (m : string) (s : pstate) : bool := existsb (String.eqb m) (ps_figs s).
(** what one message adds to a line *)
Definition adds (k : pkey) (s : pstate) (x : pmsg) : list (nat * R) := if figb (fst (fst k)) s then drawable (values k [x]) else [].
Lemma process_pts : forall k x s, keys_ok s -> keys_ok (process s x) /\ pts_at k (ps_lines (process s x)) = pts_at k (ps_lines s) ++ adds k s x.
Proof.
  intros k x s [N P]. unfold adds. destruct x as [m sv|m a t it v|]; cbn [process values flat_map app].
  - unfold create_figure. destruct (existsb (String.eqb m) (ps_figs s)); cbn [ps_lines]; (split; [split; assumption|]); destruct (figb _ s); cbn; now rewrite app_nil_r.
  - unfold update. destruct (existsb (String.eqb m) (ps_figs s)) eqn:Ef.
    2:{ split; [split; assumption|]. unfold figb. destruct (pkeyb_spec k (m, a, t)) as [->|D]; [cbn [fst]; rewrite Ef|destruct (existsb (String.eqb (fst (fst k))) (ps_figs s))]; cbn; now rewrite app_nil_r. }
    assert (Nothing : (match v with Fin _ => False | _ => True end) -> keys_ok s /\ pts_at k (ps_lines s) = pts_at k (ps_lines s) ++ (if figb (fst (fst k)) s then drawable ((if pkeyb k (m, a, t) then [(it, v)] else []) ++ []) else [])).
    { intros Hv. split; [split; assumption|]. destruct (figb _ s); [|now rewrite app_nil_r]. destruct (pkeyb k (m, a, t)); cbn; [destruct v; [contradiction|..]; cbn|]; now rewrite app_nil_r. }
    destruct v as [y| | |]; try (apply Nothing; exact I). clear Nothing.
    assert (A : (if figb (fst (fst k)) s then drawable ((if pkeyb k (m, a, t) then [(it, Fin y)] else []) ++ []) else []) = if pkeyb k (m, a, t) then [(it, y)] else []).
    { destruct (pkeyb_spec k (m, a, t)) as [->|D]; [unfold figb; cbn [fst]; rewrite Ef; reflexivity|]. destruct (figb _ s); reflexivity. }
    rewrite A. clear A. destruct (has_line_in (m, a, t) (ps_lines s)) as [I|I]; cbn [ps_lines].
    + split; [|now apply append_pts]. split; cbn [ps_lines]; [now rewrite append_keys|]. intros k' c p J. destruct (append_in _ _ _ _ _ _ J) as (q' & J' & [->| ->]); [exact (P _ _ _ J')|]. intros E. now destruct q'.
    + split; [|rewrite pts_snoc by exact I; cbn [snd]; destruct (pkeyb k (m, a, t)); reflexivity]. split; cbn [ps_lines].
      * rewrite map_app. cbn [map fst]. clear P. induction (ps_lines s) as [|[k0 e0] l IH]; cbn; [constructor; [auto|constructor]|]. cbn in N. inversion N as [|? ? N1 N2]; subst. constructor.
        -- rewrite in_app_iff. cbn. intros [J|[J|[]]]; [contradiction|]. apply I. now left.
        -- apply IH; [exact N2|]. intros J. apply I. now right.
      * intros k' c p J. apply in_app_iff in J. destruct J as [J|[J|[]]]; [exact (P _ _ _ J)|]. injection J as <- <- <-. discriminate.
  - split; [split; assumption|]. destruct (figb _ s); now rewrite app_nil_r.
Qed.
Lemma process_fig : forall m x s, figb m (process s x) = (figb m s || match x with PInit m' _ => String.eqb m m' | _ => false end)%bool.
Proof.
  intros m x s. unfold figb. destruct x as [m' sv|m' a t it v|]; cbn [process]; [|unfold update|now rewrite orb_false_r].
  - unfold create_figure. destruct (existsb (String.eqb m') (ps_figs s)) eqn:E; cbn [ps_figs].
    + destruct (String.eqb_spec m m') as [->|]; [rewrite E; reflexivity|now rewrite orb_false_r].
    + rewrite existsb_app. cbn. now rewrite orb_false_r.
  - rewrite orb_false_r. destruct (existsb (String.eqb m') (ps_figs s)); [|reflexivity]. destruct v; try reflexivity. destruct (has_line _ _); reflexivity.
Qed.
Lemma drawable_app : forall a b, drawable (a ++ b) = drawable a ++ drawable b.
Proof. intros. unfold drawable. apply flat_map_app. Qed.
Lemma values_app : forall k a b, values k (a ++ b) = values k a ++ values k b.
Proof. intros. unfold values. apply flat_map_app. Qed.
Lemma values_cons : forall k x q, values k (x :: q) = values k [x] ++ values k q.
Proof. intros. apply (values_app k [x] q). Qed.
Lemma fold_pts : forall k q s, keys_ok s -> keys_ok (fold_left process q s) /\
  pts_at k (ps_lines (fold_left process q s)) = pts_at k (ps_lines s) ++ drawable (values k (if figb (fst (fst k)) s then q else announced (fst (fst k)) q)).
Proof.
  intros k q. induction q as [|x q IH]; intros s H; cbn [fold_left].
  - split; [exact H|]. destruct (figb _ s); cbn; now rewrite app_nil_r.
  - destruct (process_pts k x s H) as [K1 K2]. destruct (IH _ K1) as [K3 K4]. split; [exact K3|]. rewrite K4, K2, <- app_assoc. f_equal. unfold adds. rewrite process_fig. destruct (figb (fst (fst k)) s); cbn [orb].
    + rewrite (values_cons k x q), drawable_app. reflexivity.
    + cbn [app]. destruct x as [m' sv|m' a t it v|]; cbn [announced]; reflexivity.
Qed.

(** *** Queues in which every update follows an announcement *)
Fixpoint good (F : list string) (l : list pmsg) : Prop :=
  match l with
  | [] => True
  | PInit m _ :: l => good (m :: F) l
  | PUpdate m _ _ _ _ :: l => In m F /\ good F l
  | PJunk :: l => good F l
  end.
Lemma good_mono : forall l F F', (forall m, In m F -> In m F') -> good F l -> good F' l.
Proof.
  induction l as [|[m sv|m a t it v|] l IH]; intros F F' S G; cbn in *; auto.
  - revert G. apply IH. intros x [->|I]; [now left|right; auto].
  - destruct G. split; eauto.
  - eauto.
Qed.
Lemma good_merge : forall ls q, merge ls q -> forall F, Forall (good F) ls -> good F q.
Proof.
  intros ls q M. induction M as [|l1 x l l2 q M IH]; intros F G; [exact I|].
  apply Forall_app in G. destruct G as [G1 G2]. inversion G2 as [|? ? Gx G3]; subst.
  destruct x as [m sv|m a t it v|]; cbn in Gx |- *.
  - apply IH. apply Forall_app. split; [|constructor; [exact Gx|]]; (eapply Forall_impl; [|eassumption]); intros y; apply good_mono; now right.
  - destruct Gx as [I Gx]. split; [exact I|]. apply IH. apply Forall_app. split; [exact G1|now constructor].
  - apply IH. apply Forall_app. split; [exact G1|now constructor].
Qed.
Lemma good_values : forall q F k, good F q -> ~ In (fst (fst k)) F -> values k (announced (fst (fst k)) q) = values k q.
Proof.
  induction q as [|x q IH]; intros F k G N; [reflexivity|]. rewrite (values_cons k x q). destruct x as [m sv|m a t it v|]; cbn in G |- *.
  - destruct (String.eqb_spec (fst (fst k)) m) as [E|D]; [reflexivity|]. apply (IH (m :: F)); [exact G|]. intros [E|I]; [congruence|contradiction].
  - destruct G as [I G]. destruct (pkeyb_spec k (m, a, t)) as [->|D]; [contradiction|]. cbn [app]. now apply (IH F).
  - now apply (IH F).
Qed.
Lemma good_trial : forall metas a t ps, good [] (trial_messages metas a t ps).
Proof.
  intros metas a t ps. unfold trial_messages.
  assert (X : forall l F, (forall m, In m l -> In m metas) -> (forall m, In m metas -> In m l \/ In (fst m) F) -> good F (map (fun m => PInit (fst m) (snd m)) l ++ map (fun p : Runtime.point => match nth_error metas (fst (fst p)) with Some m => PUpdate (fst m) a t (snd (fst p)) (snd p) | None => PJunk end) ps)).
  { induction l as [|m l IH]; intros F S C; cbn [map app].
    - induction ps as [|p ps IHp]; [exact I|]. cbn [map]. destruct (nth_error metas (fst (fst p))) as [m|] eqn:E; cbn [good]; [|exact IHp]. split; [|exact IHp]. destruct (C m (nth_error_In _ _ E)) as [[]|J]. exact J.
    - cbn [good]. apply IH; [intros; apply S; now right|]. intros m' I. destruct (C m' I) as [[->|J]|J]; [right; now left|now left|right; now right]. }
  apply X; auto.
Qed.

(** *** One sender's messages in a merge *)
Lemma values_merge : forall ls q k, merge ls q -> forall l1 l l2, ls = l1 ++ l :: l2 -> (forall l', In l' (l1 ++ l2) -> values k l' = []) -> values k q = values k l.
Proof.
  intros ls q k M. induction M as [ls H|p1 x p p2 q M IH]; intros l1 l l2 E Z.
  - rewrite (H l); [reflexivity|]. rewrite E. apply in_app_iff. right. now left.
  - rewrite (values_cons k x q).
    assert (Cases : (p1 = l1 /\ x :: p = l /\ p2 = l2) \/ (exists a, l1 = p1 ++ (x :: p) :: a /\ p2 = a ++ l :: l2) \/ (exists a, p1 = l1 ++ l :: a /\ l2 = a ++ (x :: p) :: p2)).
    { clear - E. revert p1 E. induction l1 as [|h l1 IH]; intros [|h' p1] E; cbn in E.
      - injection E as E1 E2. left. auto.
      - injection E as E1 E2. right. right. exists p1. subst. auto.
      - injection E as E1 E2. right. left. exists l1. subst. auto.
      - injection E as E1 E2. destruct (IH _ E2) as [(A & B & C)|[(b & A & B)|(b & A & B)]]; subst; [left; auto|right; left; exists b; auto|right; right; exists b; auto]. }
    destruct Cases as [(-> & <- & ->)|[(b & -> & ->)|(b & -> & ->)]].
    + rewrite (values_cons k x p). f_equal. now apply (IH l1 p l2).
    + assert (Zx : values k (x :: p) = []) by (apply Z; apply in_app_iff; left; apply in_app_iff; right; now left). rewrite values_cons in Zx. apply app_eq_nil in Zx. destruct Zx as [Zx Zp]. rewrite Zx. cbn [app].
      apply (IH (p1 ++ p :: b) l l2); [now rewrite <- app_assoc|]. intros l' I. apply in_app_iff in I. destruct I as [I|I]; [|apply Z; apply in_app_iff; now right]. apply in_app_iff in I. destruct I as [I|[<-|I]]; [|exact Zp|]; apply Z; apply in_app_iff; left; apply in_app_iff; [now left|right; now right].
    + assert (Zx : values k (x :: p) = []) by (apply Z; apply in_app_iff; right; apply in_app_iff; right; now left). rewrite values_cons in Zx. apply app_eq_nil in Zx. destruct Zx as [Zx Zp]. rewrite Zx. cbn [app].
      apply (IH l1 l (b ++ p :: p2)); [now rewrite <- app_assoc|]. intros l' I. apply in_app_iff in I. destruct I as [I|I]; [apply Z; apply in_app_iff; now left|]. apply in_app_iff in I. destruct I as [I|[<-|I]]; [|exact Zp|]; apply Z; apply in_app_iff; right; apply in_app_iff; [now left|right; now right].
Qed.
Lemma values_inits : forall k metas, values k (map (fun m : string * option string => PInit (fst m) (snd m)) metas) = [].
Proof. intros k metas. induction metas; [reflexivity|]. exact IHmetas. Qed.
Lemma values_trial : forall metas a t ps i m, NoDup (map fst metas) -> nth_error metas i = Some m ->
  values (fst m, a, t) (trial_messages metas a t ps) = sent i ps.
Proof.
  intros metas a t ps i m N E. unfold trial_messages. rewrite values_app, values_inits. cbn [app]. unfold sent. induction ps as [|[[j it] v] ps IH]; [reflexivity|]. cbn [map filter fst snd]. rewrite values_cons.
  assert (X : values (fst m, a, t) [match nth_error metas j with Some m0 => PUpdate (fst m0) a t it v | None => PJunk end] = if Nat.eqb j i then [(it, v)] else []).
  { destruct (Nat.eqb_spec j i) as [->|D].
    - rewrite E. cbn. destruct (pkeyb_spec (fst m, a, t) (fst m, a, t)); [reflexivity|congruence].
    - destruct (nth_error metas j) as [m0|] eqn:E0; [|reflexivity]. cbn. destruct (pkeyb_spec (fst m, a, t) (fst m0, a, t)) as [Ek|]; [|reflexivity]. exfalso. apply D. injection Ek as Ek.
      rewrite NoDup_nth_error in N. apply N; [rewrite map_length; apply nth_error_Some; congruence|]. rewrite (map_nth_error fst _ _ E0), (map_nth_error fst _ _ E). congruence. }
  rewrite X. destruct (Nat.eqb j i); cbn [map app fst snd]; now rewrite IH.
Qed.
Lemma values_foreign : forall metas a t ps k, (snd (fst k), snd k) <> (a, t) -> values k (trial_messages metas a t ps) = [].
Proof.
  intros metas a t ps [[m a'] t'] D. cbn [fst snd] in D. unfold trial_messages. rewrite values_app, values_inits. cbn [app]. induction ps as [|p ps IH]; [reflexivity|]. cbn [map]. rewrite values_cons, IH.
  destruct (nth_error metas (fst (fst p))) as [m0|]; [|reflexivity]. cbn. destruct (pkeyb_spec (m, a', t') (fst m0, a, t)) as [E|]; [|reflexivity]. congruence.
Qed.

(** *** Colours *)
Lemma color_app : forall k l l' c, color_index k l = Some c -> color_index k (l ++ l') = Some c.
Proof.
  intros k l l'. induction l as [|k' l IH]; intros c E; [discriminate|]. cbn in *. destruct (skeyb k k'); [exact E|]. destruct (color_index k l) as [c'|]; [|discriminate]. rewrite (IH c' eq_refl). exact E.
Qed.
Lemma color_snoc : forall k l, color_index k l = None -> color_index k (l ++ [k]) = Some (List.length l).
Proof.
  intros k l. induction l as [|k' l IH]; intros E; cbn in *; [destruct (skeyb_spec k k); [reflexivity|congruence]|]. destruct (skeyb k k'); [discriminate|]. destruct (color_index k l); [discriminate|]. rewrite IH by reflexivity. reflexivity.
Qed.
Lemma color_nth : forall k l c, color_index k l = Some c -> nth_error l c = Some k.
Proof.
  intros k l. induction l as [|k' l IH]; intros c E; [discriminate|]. cbn in E. destruct (skeyb_spec k k') as [->|D]; [injection E as <-; reflexivity|]. destruct (color_index k l) as [c'|]; [|discriminate]. injection E as <-. cbn. now apply IH.
Qed.
Lemma color_none : forall k l, color_index k l = None -> ~ In k l.
Proof.
  intros k l. induction l as [|k' l IH]; intros E I; [contradiction|]. cbn in E. destruct (skeyb_spec k k') as [->|D]; [discriminate|]. destruct (color_index k l); [discriminate|]. destruct I as [I|I]; [congruence|now apply IH].
Qed.
Definition colors_ok (L : list (string * nat)) (s : pstate) : Prop :=
  NoDup (ps_colors s) /\ (forall k, In k (ps_colors s) -> In k L) /\ forall m a t c p, In ((m, a, t), (c, p)) (ps_lines s) -> color_index (a, t) (ps_colors s) = Some c.
Lemma process_colors : forall L x s, (forall m a t it v, x = PUpdate m a t it v -> In (a, t) L) -> colors_ok L s -> colors_ok L (process s x).
Proof.
  intros L x s HL (N & S & C). destruct x as [m sv|m a t it v|]; cbn [process]; [unfold create_figure; destruct (existsb _ _); split; auto| |split; auto].
  unfold update. destruct (existsb _ _); [|split; auto]. destruct v as [y| | |]; try (split; auto; fail). destruct (has_line _ _).
  - split; [exact N|]. split; [exact S|]. cbn [ps_lines ps_colors]. intros m' a' t' c p I. destruct (append_in _ _ _ _ _ _ I) as (q' & J & _). eapply C. exact J.
  - cbn [ps_lines ps_colors]. destruct (color_index (a, t) (ps_colors s)) as [c0|] eqn:E.
    + split; [exact N|]. split; [exact S|]. cbn [ps_lines ps_colors]. intros m' a' t' c p I. apply in_app_iff in I. destruct I as [I|[I|[]]]; [eapply C; exact I|]. rewrite E in I. injection I as <- <- <- <- _. exact E.
    + split; [|split]; cbn [ps_lines ps_colors].
      * apply color_none in E. clear - N E. induction (ps_colors s) as [|k l IH]; cbn; [constructor; [auto|constructor]|]. inversion N as [|? ? N1 N2]; subst. constructor; [rewrite in_app_iff; cbn; intros [J|[J|[]]]; [contradiction|apply E; now left]|]. apply IH; [exact N2|]. intros J. apply E. now right.
      * intros k I. apply in_app_iff in I. destruct I as [I|[<-|[]]]; [auto|eapply HL; reflexivity].
      * intros m' a' t' c p I. apply in_app_iff in I. destruct I as [I|[I|[]]]; [apply color_app; eapply C; exact I|]. rewrite (color_snoc _ _ E) in I. injection I as <- <- <- <- _. now apply color_snoc.
Qed.
Lemma all_colors : forall L q, (forall m a t it v, In (PUpdate m a t it v) q -> In (a, t) L) -> colors_ok L (process_all q).
Proof.
  intros L q HL. unfold process_all. assert (B : colors_ok L p_start) by (split; [constructor|split; intros; contradiction]). revert B. generalize p_start. induction q as [|x q IH]; intros s B; [exact B|]. cbn [fold_left]. apply IH; [intros; eapply HL; right; eassumption|].
  apply process_colors; [|exact B]. intros m a t it v ->. eapply HL. now left.
Qed.

(** *** Saved files *)
Lemma process_saves : forall x s, (forall m p, In (m, p) (ps_saves s) -> In m (ps_figs s)) ->
  (forall m p, In (m, p) (ps_saves (process s x)) -> In m (ps_figs (process s x))) /\
  forall m p, In (m, p) (ps_saves (process s x)) <-> In (m, p) (ps_saves s) \/ (~ In m (ps_figs s) /\ x = PInit m (Some p)).
Proof.
  intros x s H. destruct x as [m0 sv|m0 a t it v|]; cbn [process].
  - unfold create_figure. destruct (has_str m0 (ps_figs s)) as [I|I]; [split; [exact H|]; intros m p; split; [auto|intros [J|[J E]]; [exact J|congruence]]|]. cbn [ps_saves ps_figs]. split.
    + intros m p J. apply in_app_iff. destruct sv as [p0|]; [|left; eapply H; exact J]. apply in_app_iff in J. destruct J as [J|[J|[]]]; [left; eapply H; exact J|right; left; congruence].
    + intros m p. destruct sv as [p0|].
      * rewrite in_app_iff. cbn. split; [intros [J|[J|[]]]; [auto|right; injection J as -> ->; auto]|intros [J|[J E]]; [auto|right; left; congruence]].
      * split; [auto|intros [J|[J E]]; [auto|congruence]].
  - assert (E : ps_saves (update m0 a t it v s) = ps_saves s /\ ps_figs (update m0 a t it v s) = ps_figs s) by (unfold update; destruct (existsb _ _); [destruct v; [destruct (has_line _ _)|..]|]; auto).
    destruct E as [-> ->]. split; [exact H|]. intros m p. split; [auto|intros [J|[_ J]]; [exact J|discriminate]].
  - split; [exact H|]. intros m p. split; [auto|intros [J|[_ J]]; [exact J|discriminate]].
Qed.
Lemma fold_saves : forall q s, (forall m p, In (m, p) (ps_saves s) -> In m (ps_figs s)) -> let s' := fold_left process q s in
  (forall m p, In (m, p) (ps_saves s') -> In m (ps_figs s')) /\ forall m p, In (m, p) (ps_saves s') <-> In (m, p) (ps_saves s) \/ (~ In m (ps_figs s) /\ first_path m q = Some p).
Proof.
  induction q as [|x q IH]; intros s H; cbn [fold_left]; cbv zeta.
  - split; [exact H|]. intros m p. split; [auto|intros [J|[_ J]]; [exact J|discriminate]].
  - destruct (process_saves x s H) as [P1 P2]. destruct (IH _ P1) as [I1 I2]. split; [exact I1|]. intros m p. rewrite I2, P2.
    pose proof (process_fig m x s) as F. unfold figb in F. rewrite !(fun l => reflect_iff _ _ (has_str m l)). destruct (has_str m (ps_figs s)) as [Im|Im]; cbn [orb] in F; rewrite F.
    + split; [intros [[J|[J _]]|[J _]]|intros [J|[J _]]]; auto; try congruence; contradiction.
    + destruct x as [m0 sv|m0 a t it v|]; cbn [first_path].
      * destruct (String.eqb_spec m m0) as [->|D].
        -- split; [intros [[J|[_ J]]|[J _]]; auto; [right; split; congruence|congruence]|intros [J|[_ J]]; [auto|left; right; split; congruence]].
        -- split; [intros [[J|[_ J]]|[J E]]; auto; congruence|intros [J|[_ J]]; [auto|right; split; [discriminate|exact J]]].
      * split; [intros [[J|[_ J]]|[J E]]; auto; discriminate|intros [J|[_ J]]; [auto|right; split; [discriminate|exact J]]].
      * split; [intros [[J|[_ J]]|[J E]]; auto; discriminate|intros [J|[_ J]]; [auto|right; split; [discriminate|exact J]]].
Qed.
