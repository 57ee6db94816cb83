(** References and in-place updates. *)
From Coq Require Import List ZArith Bool Lia.
From Verif.Model Require Import PyDict History Heap.
From Verif.Spec Require Import HeapSpec.
From Verif.Proofs Require Import PyDictProofs.
Import ListNotations.

Lemma key_eqb_spec p q : reflect (p = q) (key_eqb p q).
Proof.
  destruct p as [a b], q as [c d]; unfold key_eqb; cbn [fst snd].
  destruct (Nat.eqb_spec a c) as [-> |]; destruct (Nat.eqb_spec b d) as [-> |]; cbn; constructor; congruence.
Qed.

Lemma In_dset {K W} (keqb : K -> K -> bool) (Hk : forall a b, reflect (a = b) (keqb a b)) (d : list (K * W)) k v k2 v2 :
  In (k2, v2) (dset keqb d k v) -> (k2 = k /\ v2 = v) \/ In (k2, v2) d.
Proof.
  induction d as [|[k' v'] d IH]; cbn [dset].
  - intros [H|[]]. injection H as <- <-. now left.
  - destruct (Hk k k') as [-> |Hn]; intros [H|H].
    + injection H as <- <-. now left.
    + right. now right.
    + right. now left.
    + destruct (IH H) as [|]; [now left|right; now right].
Qed.

Fixpoint auxv_ind2 (P : auxv -> Prop) (Hl : forall l, P (ALeaf l))
    (Hm : forall kvs, Forall (fun kv => P (snd kv)) kvs -> P (AMap kvs)) (v : auxv) : P v :=
  match v with
  | ALeaf l => Hl l
  | AMap kvs => Hm kvs ((fix go (kvs : list (nat * auxv)) : Forall (fun kv => P (snd kv)) kvs :=
                           match kvs with
                           | [] => Forall_nil _
                           | kv :: kvs => Forall_cons kv (auxv_ind2 P Hl Hm (snd kv)) (go kvs)
                           end) kvs)
  end.

Section HP.
  Context {V : Type}.
  Variable shape_ok : nat -> V -> bool.
  Variable period : nat -> Z.
  Variable vadd : V -> V -> V.
  Notation state := (state V). Notation op := (op V). Notation heap := (heap V).
  Notation exec := (exec shape_ok period vadd).
  Notation execs := (execs shape_ok period vadd).

  Lemma write_len (h : heap) l v : length (write h l v) = length h.
  Proof. revert l; induction h as [|w h IH]; intros [|l]; cbn; auto. Qed.
  Lemma write_other (h : heap) l v l' : l' <> l -> nth_error (write h l v) l' = nth_error h l'.
  Proof. revert l l'; induction h as [|w h IH]; intros [|l] [|l'] Hn; cbn; auto; try congruence. Qed.
  Lemma write_same (h : heap) l v : (l < length h)%nat -> nth_error (write h l v) l = Some v.
  Proof. revert l; induction h as [|w h IH]; intros [|l] Hl; cbn in *; auto; try lia. apply IH; lia. Qed.

  Lemma leaves_map_cons k v kvs : leaves (AMap ((k, v) :: kvs)) = leaves v ++ leaves (AMap kvs).
  Proof. reflexivity. Qed.

  (** copies extend the heap and are new *)
  Definition fresh_copy (h h' : heap) (v' : auxv) : Prop :=
    (exists e, h' = h ++ e) /\ forall l, In l (leaves v') -> (length h <= l < length h')%nat.
  Lemma copy_aux_fresh v : forall (h h' : heap) v', copy_aux h v = Some (h', v') -> fresh_copy h h' v'.
  Proof.
    induction v as [l|kvs IH] using auxv_ind2; intros h h' v' E.
    - cbn in E. unfold copy in E. destruct (nth_error h l) as [w|]; [|discriminate]. cbn in E.
      injection E as <- <-. split; [now exists [w]|]. intros l' [<- |[]]. rewrite app_length; cbn; lia.
    - cbn [copy_aux] in E.
      set (go := fix go (h : heap) (kvs : list (nat * auxv)) : option (heap * list (nat * auxv)) :=
            match kvs with
            | [] => Some (h, [])
            | (k, v) :: kvs =>
              match copy_aux h v with
              | None => None
              | Some (h, v) => option_map (fun hk => (fst hk, (k, v) :: snd hk)) (go h kvs)
              end
            end) in E.
      assert (G : forall h h' kvs', go h kvs = Some (h', kvs') -> fresh_copy h h' (AMap kvs')).
      { clear E. induction kvs as [|[k v] kvs IHk]; intros g g' kvs' E.
        - cbn in E. injection E as <- <-. split; [exists []; now rewrite app_nil_r|]. intros l [].
        - inversion IH as [|? ? IHv IHr]; subst. cbn [go] in E. fold go in E.
          destruct (copy_aux g v) as [[g1 v1]|] eqn:E1; [|discriminate].
          destruct (go g1 kvs) as [[g2 k2]|] eqn:E2; [|discriminate]. cbn in E. injection E as <- <-.
          destruct (IHv _ _ _ E1) as [[e1 ->] F1]. destruct (IHk IHr _ _ _ E2) as [[e2 ->] F2].
          split; [exists (e1 ++ e2); now rewrite app_assoc|].
          intros l. rewrite leaves_map_cons, in_app_iff. rewrite !app_length in *. intros [Hl|Hl].
          + apply F1 in Hl. lia.
          + apply F2 in Hl. lia. }
      destruct (go h kvs) as [[g k2]|] eqn:E2; [|discriminate]. cbn in E. injection E as <- <-. now apply G.
  Qed.
  Lemma copy_dict_fresh d (h h' : heap) d' : copy_dict h d = Some (h', d') -> fresh_copy h h' (AMap d').
  Proof.
    unfold copy_dict. destruct (copy_aux h (AMap d)) as [[g v]|] eqn:E; [|discriminate].
    destruct v as [l|kvs]; [discriminate|]. intros [= <- <-]. now apply copy_aux_fresh in E.
  Qed.

  (** every place from which a client can get a reference *)
  Inductive exposed (st : state) (l : loc) : Prop :=
  | ex_ref : In l (s_refs st) -> exposed st l
  | ex_x a : a_x (s_agent st a) = Some l -> exposed st l
  | ex_aux a : In l (aux_leaves (a_aux (s_agent st a))) -> exposed st l
  | ex_msg r k : In (k, l) (a_inbox (s_agent st r)) -> exposed st l.

  Record confined (st : state) (l : loc) (X : nat -> Prop) (Q : nat -> nat * nat -> Prop) : Prop := {
    cf_len : (l < length (s_heap st))%nat;
    cf_ref : ~ In l (s_refs st);
    cf_x : forall a, a_x (s_agent st a) = Some l -> X a;
    cf_aux : forall a, ~ In l (aux_leaves (a_aux (s_agent st a)));
    cf_msg : forall r k, In (k, l) (a_inbox (s_agent st r)) -> Q r k
  }.
  (** the operation hands out a reference kept at a permitted place *)
  Definition leaks (X : nat -> Prop) (Q : nat -> nat * nat -> Prop) (o : op) : Prop :=
    match o with OGetX a => X a | OGetMsg r ch s => Q r (ch, s) | _ => False end.

  Lemma holds_In (st : state) l : holds st l = true -> In l (s_refs st).
  Proof. unfold holds. rewrite existsb_exists. intros (l' & H & E). apply Nat.eqb_eq in E. now subst. Qed.
  Lemma holds_all_In (st : state) ls l : holds_all st ls = true -> In l ls -> In l (s_refs st).
  Proof. unfold holds_all. rewrite forallb_forall. intros H Hl. apply holds_In. auto. Qed.

  (** what an operation may do to the references: nothing but new locations,
      references the client already had, and moves between the places *)
  Record evolves (st st' : state) (o : op) : Prop := {
    ev_heap : forall l, ~ In l (s_refs st) -> (l < length (s_heap st))%nat ->
                nth_error (s_heap st') l = nth_error (s_heap st) l;
    ev_len : (length (s_heap st) <= length (s_heap st'))%nat;
    ev_ref : forall l, In l (s_refs st') -> In l (s_refs st)
               \/ (length (s_heap st) <= l < length (s_heap st'))%nat
               \/ (exists a, o = OGetX a /\ a_x (s_agent st a) = Some l)
               \/ (exists a, In l (aux_leaves (a_aux (s_agent st a))))
               \/ (exists r ch s, o = OGetMsg r ch s /\ In ((ch, s), l) (a_inbox (s_agent st r)));
    ev_x : forall a l, a_x (s_agent st' a) = Some l -> In l (s_refs st)
               \/ (length (s_heap st) <= l < length (s_heap st'))%nat \/ a_x (s_agent st a) = Some l;
    ev_aux : forall a l, In l (aux_leaves (a_aux (s_agent st' a))) -> In l (s_refs st)
               \/ (length (s_heap st) <= l < length (s_heap st'))%nat \/ In l (aux_leaves (a_aux (s_agent st a)));
    ev_msg : forall r k l, In (k, l) (a_inbox (s_agent st' r)) ->
               (length (s_heap st) <= l < length (s_heap st'))%nat \/ In (k, l) (a_inbox (s_agent st r))
  }.

  Lemma deliver_app s ch l v rs : forall noise (st st' : state),
    deliver vadd st s ch l v rs noise = Some st' -> (l < length (s_heap st))%nat ->
    (exists e, s_heap st' = s_heap st ++ e) /\ s_refs st' = s_refs st
    /\ (forall a, a_x (s_agent st' a) = a_x (s_agent st a) /\ a_hist (s_agent st' a) = a_hist (s_agent st a)
                  /\ a_aux (s_agent st' a) = a_aux (s_agent st a))
    /\ (forall r k l', In (k, l') (a_inbox (s_agent st' r)) ->
          In (k, l') (a_inbox (s_agent st r)) \/ l' = l \/ (length (s_heap st) <= l' < length (s_heap st'))%nat).
  Proof.
    induction rs as [|r rs IH]; intros noise st st' E Hl; cbn [deliver] in E.
    - injection E as <-. split; [exists []; now rewrite app_nil_r|]. repeat split; auto.
    - destruct noise as [[|n ns]|]; [discriminate| |].
      + cbn [new] in E. apply IH in E; [|cbn; rewrite app_length; lia].
        cbn in E. destruct E as ((e & He) & Hr & Ha & Hm).
        split; [exists ([vadd v n] ++ e); now rewrite app_assoc|]. split; [exact Hr|].
        assert (L : (length (s_heap st) < length (s_heap st'))%nat) by (rewrite He, !app_length; cbn; lia).
        split.
        * intros a. destruct (Ha a) as (A1 & A2 & A3). rewrite A1, A2, A3.
          destruct (Nat.eqb a r) eqn:Ear; [apply Nat.eqb_eq in Ear; subst a|]; cbn; auto.
        * intros q k l' Hin. apply Hm in Hin. destruct Hin as [Hin|[Hin|Hin]].
          -- destruct (Nat.eqb_spec q r) as [-> |]; [|now left]. cbn in Hin.
             apply (In_dset _ key_eqb_spec) in Hin. destruct Hin as [[_ ->]|Hin]; [right; right; lia|now left].
          -- now right; left.
          -- rewrite app_length in Hin. right; right. cbn in Hin. lia.
      + apply IH in E; [|cbn; lia]. cbn in E. destruct E as (He & Hr & Ha & Hm).
        split; [exact He|]. split; [exact Hr|]. split.
        * intros a. destruct (Ha a) as (A1 & A2 & A3). rewrite A1, A2, A3.
          destruct (Nat.eqb a r) eqn:Ear; [apply Nat.eqb_eq in Ear; subst a|]; cbn; auto.
        * intros q k l' Hin. apply Hm in Hin. destruct Hin as [Hin|[Hin|Hin]]; auto.
          destruct (Nat.eqb_spec q r) as [-> |]; [|now left]. cbn in Hin.
          apply (In_dset _ key_eqb_spec) in Hin. destruct Hin as [[_ ->]|Hin]; auto.
  Qed.

  Lemma nth_ext (h e : heap) l : (l < length h)%nat -> nth_error (h ++ e) l = nth_error h l.
  Proof. intros. now apply nth_error_app1. Qed.

  Lemma exec_evolves (st st' : state) o : exec st o = Some st' -> evolves st st' o.
  Proof.
    destruct o as [v|l v|a x aux|a|a l|a|a d|r ch s|a it force|s ch l c rs noise|]; cbn [Heap.exec]; intros E.
    - cbn in E. injection E as <-. constructor; cbn.
      + intros. now apply nth_ext.
      + rewrite app_length; lia.
      + intros l [<- |H]; [|auto]. rewrite app_length; cbn; right; left; lia.
      + auto.
      + auto.
      + auto.
    - unfold guard in E. destruct (holds st l) eqn:Hh; [|discriminate]. apply holds_In in Hh. injection E as <-.
      constructor; cbn; auto; try (rewrite write_len; auto); auto.
      intros l' Hn _. apply write_other. congruence.
    - unfold guard in E. destruct (holds_all _ _ && holds_all _ _) eqn:Hh; [|discriminate].
      apply andb_true_iff in Hh. destruct Hh as [Hx Haux]. unfold initialize in E.
      assert (P : forall (st1 : state) g, (exists e, s_heap st1 = s_heap st ++ e) -> s_refs st1 = s_refs st ->
                (forall b, s_agent st1 b = s_agent st b) ->
                a_aux g = [] -> a_inbox g = [] ->
                (forall l, a_x g = Some l -> (length (s_heap st) <= l < length (s_heap st1))%nat \/ a_x (s_agent st a) = Some l) ->
                match aux with
                | None => Some (put st1 a g)
                | Some d => option_map (fun hd => put (mkState (fst hd) (s_agent st1) (s_refs st1)) a
                                  (mkAgent (a_x g) (a_hist g) (snd hd) (a_inbox g))) (copy_dict (s_heap st1) d)
                end = Some st' -> evolves st st' (OInit a x aux)).
      { clear E. intros st1 g (e & He) Hr Ha Hg1 Hg2 Hgx E.
        assert (L : (length (s_heap st) <= length (s_heap st1))%nat) by (rewrite He, app_length; lia).
        destruct aux as [d|].
        - destruct (copy_dict (s_heap st1) d) as [[h' d']|] eqn:Ec; [|discriminate]. cbn in E. injection E as <-.
          apply copy_dict_fresh in Ec. destruct Ec as [(e2 & ->) F].
          assert (L2 : (length (s_heap st1) <= length (s_heap st1 ++ e2))%nat) by (rewrite app_length; lia).
          constructor; cbn.
          + intros l _ Hl. rewrite He, <- app_assoc. now apply nth_ext.
          + lia.
          + intros l. rewrite Hr. auto.
          + intros b l. rewrite Ha. destruct (Nat.eqb_spec b a) as [-> |]; cbn; [|auto].
            intros Hl. destruct (Hgx _ Hl) as [Hl'|]; [|auto]. right; left; lia.
          + intros b l. rewrite Ha. destruct (Nat.eqb_spec b a) as [-> |]; cbn; [|auto].
            intros Hl. apply F in Hl. right; left; lia.
          + intros b k l. rewrite Ha. destruct (Nat.eqb_spec b a) as [-> |]; cbn; [|auto]. rewrite Hg2. intros [].
        - injection E as <-. constructor; cbn.
          + intros l _ Hl. rewrite He. now apply nth_ext.
          + lia.
          + intros l. rewrite Hr. auto.
          + intros b l. rewrite Ha. destruct (Nat.eqb_spec b a) as [-> |]; cbn; [|auto].
            intros Hl. destruct (Hgx _ Hl) as [Hl'|]; auto.
          + intros b l. rewrite Ha. destruct (Nat.eqb_spec b a) as [-> |]; cbn; [|auto]. rewrite Hg1. intros [].
          + intros b k l. rewrite Ha. destruct (Nat.eqb_spec b a) as [-> |]; cbn; [|auto]. rewrite Hg2. intros []. }
      destruct x as [lx|].
      + destruct (nth_error (s_heap st) lx) as [v|]; [|discriminate]. destruct (shape_ok a v).
        * cbn [new] in E. cbn [h_set] in E. cbv beta iota in E.
          refine (P _ _ _ _ _ _ _ _ E); cbn; auto.
          -- exists ([v] ++ [v]). now rewrite app_assoc.
          -- intros l [= <-]. left. rewrite !app_length; cbn; lia.
        * injection E as <-. constructor; cbn; auto.
          -- intros b l. destruct (Nat.eqb_spec b a) as [-> |]; cbn; auto.
          -- intros b l. destruct (Nat.eqb_spec b a) as [-> |]; cbn; auto. intros [].
          -- intros b k l. destruct (Nat.eqb_spec b a) as [-> |]; cbn; auto. intros [].
      + refine (P _ _ _ _ _ _ _ _ E); cbn; auto. exists []; now rewrite app_nil_r.
    - destruct (a_x (s_agent st a)) as [l|] eqn:Hx; [|discriminate]. injection E as <-.
      constructor; cbn; auto. intros l' [<- |H]; auto. right; right; left. exists a. auto.
    - unfold guard in E. destruct (holds st l) eqn:Hh; [|discriminate]. apply holds_In in Hh. injection E as <-.
      constructor; cbn; auto.
      + intros b l'. destruct (Nat.eqb_spec b a) as [-> |]; cbn; auto. intros [= <-]. auto.
      + intros b l'. destruct (Nat.eqb_spec b a) as [-> |]; cbn; auto.
      + intros b k l'. destruct (Nat.eqb_spec b a) as [-> |]; cbn; auto.
    - injection E as <-. constructor; cbn; auto. intros l. rewrite in_app_iff. intros [H|H]; eauto 6.
    - unfold guard in E. destruct (holds_all _ _) eqn:Hh; [|discriminate]. injection E as <-.
      constructor; cbn; auto.
      + intros b l'. destruct (Nat.eqb_spec b a) as [-> |]; cbn; auto.
      + intros b l'. destruct (Nat.eqb_spec b a) as [-> |]; cbn [a_aux s_agent]; auto.
        intros H. left. eapply holds_all_In; eauto.
      + intros b k l'. destruct (Nat.eqb_spec b a) as [-> |]; cbn; auto.
    - destruct (dget key_eqb _ _) as [l|] eqn:Ed; [|discriminate]. injection E as <-.
      apply (dget_In _ _ _ key_eqb_spec) in Ed.
      constructor; cbn; auto. intros l' [<- |H]; auto. right; right; right; right. exists r, ch, s. auto.
    - unfold snapshot in E. destruct (a_x (s_agent st a)) as [l|] eqn:Hx.
      2:{ injection E as <-. constructor; auto. }
      destruct (_ || _); [|injection E as <-; constructor; auto].
      unfold copy in E. destruct (nth_error (s_heap st) l) as [v|]; [|discriminate]. cbn in E.
      destruct (h_set _ _ _) as [hist| |]; injection E as <-; constructor; cbn; auto;
        try (intros; now apply nth_ext); try (rewrite app_length; lia);
        try (intros b l'; destruct (Nat.eqb_spec b a) as [-> |]; cbn; auto).
      rewrite Hx. auto.
    - unfold guard in E. destruct (holds st l) eqn:Hh; [|discriminate]. unfold send in E.
      destruct (nth_error (s_heap st) l) as [v|]; [|discriminate].
      assert (P : forall e l1 w, (length (s_heap st) <= l1 < length (s_heap st ++ e))%nat ->
                 deliver vadd (mkState (s_heap st ++ e) (s_agent st) (s_refs st)) s ch l1 w rs noise = Some st' ->
                 evolves st st' (OSend s ch l c rs noise)).
      { clear E. intros e l1 w Hl1 E. apply deliver_app in E; [|cbn; lia]. cbn in E.
        destruct E as ((e2 & He) & Hr & Ha & Hm).
        assert (L : (length (s_heap st ++ e) <= length (s_heap st'))%nat) by (rewrite He, !app_length; lia).
        assert (L0 : length (s_heap st ++ e) = (length (s_heap st) + length e)%nat) by apply app_length.
        constructor.
        - intros l' _ Hl. rewrite He, <- app_assoc. now apply nth_ext.
        - lia.
        - intros l'. rewrite Hr. auto.
        - intros b l'. destruct (Ha b) as (A1 & A2 & A3). rewrite A1. auto.
        - intros b l'. destruct (Ha b) as (A1 & A2 & A3). rewrite A3. auto.
        - intros b k l' Hin. destruct (Hm _ _ _ Hin) as [|[-> |]]; auto; left; lia. }
      destruct c as [|f]; cbn [new] in E.
      + apply P in E; auto. rewrite app_length; cbn; lia.
      + rewrite <- app_assoc in E. apply P in E; auto. rewrite !app_length; cbn; lia.
    - injection E as <-. constructor; cbn; auto. intros r k l [].
  Qed.

  Lemma confined_step (st st' : state) o l X Q : exec st o = Some st' -> confined st l X Q -> ~ leaks X Q o ->
    confined st' l X Q /\ content st' l = content st l.
  Proof.
    intros E [Cl Cr Cx Ca Cm] Hk. apply exec_evolves in E. destruct E as [Eh El Er Ex Ea Em].
    split; [constructor|].
    - lia.
    - intros H. destruct (Er _ H) as [H1|[H1|[(a & -> & H1)|[(a & H1)|(r & ch & s & -> & H1)]]]]; auto.
      + lia.
      + apply Hk. cbn. auto.
      + eapply Ca; eauto.
      + apply Hk. cbn. auto.
    - intros a H. destruct (Ex _ _ H) as [H1|[H1|H1]]; auto; [contradiction|lia].
    - intros a H. destruct (Ea _ _ H) as [H1|[H1|H1]]; [contradiction|lia|eapply Ca; eauto].
    - intros r k H. destruct (Em _ _ _ H) as [H1|H1]; [lia|auto].
    - unfold content. auto.
  Qed.
  Lemma confined_steps os : forall (st st' : state) l X Q, execs st os = Some st' -> confined st l X Q ->
    (forall o, In o os -> ~ leaks X Q o) -> confined st' l X Q /\ content st' l = content st l.
  Proof.
    induction os as [|o os IH]; intros st st' l X Q E C Hk; cbn in E.
    - injection E as <-. auto.
    - destruct (exec st o) as [st1|] eqn:E1; [|discriminate].
      destruct (confined_step _ _ _ _ _ _ E1 C (Hk o (or_introl eq_refl))) as [C1 V1].
      destruct (IH _ _ _ _ _ E C1) as [C2 V2]; [intros; apply Hk; now right|]. split; auto. congruence.
  Qed.

  (** in a reachable state all references are within the heap *)
  Definition wf (st : state) : Prop := forall l, exposed st l -> (l < length (s_heap st))%nat.
  Lemma wf0 : wf state0.
  Proof. intros l [H|a H|a H|r k H]; cbn in H; try contradiction; discriminate. Qed.
  Lemma wf_step (st st' : state) o : exec st o = Some st' -> wf st -> wf st'.
  Proof.
    intros E W. apply exec_evolves in E. destruct E as [Eh El Er Ex Ea Em].
    intros l [H|a H|a H|r k H].
    - destruct (Er _ H) as [H1|[H1|[(a & -> & H1)|[(a & H1)|(r & ch & s & -> & H1)]]]].
      + pose proof (W l (ex_ref _ _ H1)); lia.
      + lia.
      + pose proof (W l (ex_x _ _ _ H1)); lia.
      + pose proof (W l (ex_aux _ _ _ H1)); lia.
      + pose proof (W l (ex_msg _ _ _ _ H1)); lia.
    - destruct (Ex _ _ H) as [H1|[H1|H1]]; [pose proof (W l (ex_ref _ _ H1)); lia|lia|pose proof (W l (ex_x _ _ _ H1)); lia].
    - destruct (Ea _ _ H) as [H1|[H1|H1]]; [pose proof (W l (ex_ref _ _ H1)); lia|lia|pose proof (W l (ex_aux _ _ _ H1)); lia].
    - destruct (Em _ _ _ H) as [H1|H1]; [lia|pose proof (W l (ex_msg _ _ _ _ H1)); lia].
  Qed.
  Lemma wf_steps os : forall st st', execs st os = Some st' -> wf st -> wf st'.
  Proof.
    induction os as [|o os IH]; intros st st' E W; cbn in E; [now injection E as <-|].
    destruct (exec st o) as [st1|] eqn:E1; [|discriminate]. eauto using wf_step.
  Qed.
  Lemma execs_app os1 os2 : forall st, execs st (os1 ++ os2) =
    match execs st os1 with Some st1 => execs st1 os2 | None => None end.
  Proof. induction os1 as [|o os1 IH]; intros st; cbn; auto. destruct (exec st o); auto. Qed.

  (** a fresh location is confined to where it is put *)
  Lemma fresh_unexposed (st : state) l : wf st -> (length (s_heap st) <= l)%nat -> ~ exposed st l.
  Proof. intros W Hl H. apply W in H. lia. Qed.

  (** ** where the references stay *)
  Lemma hist_dget_step (st st' : state) o a k : exec st o = Some st' -> ~ rerecords a k o ->
    dget Z.eqb (h_dict (a_hist (s_agent st' a))) k = dget Z.eqb (h_dict (a_hist (s_agent st a))) k.
  Proof.
    destruct o as [v|l v|b x aux|b|b l|b|b d|r ch s|b it force|s ch l c rs noise|]; cbn [Heap.exec rerecords]; intros E Hn.
    - cbn in E. now injection E as <-.
    - unfold guard in E. destruct (holds st l); [|discriminate]. now injection E as <-.
    - unfold guard in E. destruct (_ && _); [|discriminate]. unfold initialize in E.
      assert (Hb : Nat.eqb a b = false) by (apply Nat.eqb_neq; congruence).
      destruct x as [lx|].
      + destruct (nth_error _ _) as [v|]; [|discriminate]. destruct (shape_ok b v).
        * cbn [new h_set] in E. cbv beta iota in E. destruct aux as [d|].
          -- destruct (copy_dict _ _); [|discriminate]. cbn in E. injection E as <-. cbn. now rewrite Hb.
          -- injection E as <-. cbn. now rewrite Hb.
        * injection E as <-. cbn. now rewrite Hb.
      + destruct aux as [d|].
        -- destruct (copy_dict _ _); [|discriminate]. cbn in E. injection E as <-. cbn. now rewrite Hb.
        -- injection E as <-. cbn. now rewrite Hb.
    - destruct (a_x _); [|discriminate]. now injection E as <-.
    - unfold guard in E. destruct (holds st l); [|discriminate]. injection E as <-. cbn.
      destruct (Nat.eqb_spec a b) as [-> |]; reflexivity.
    - now injection E as <-.
    - unfold guard in E. destruct (holds_all _ _); [|discriminate]. injection E as <-. cbn.
      destruct (Nat.eqb_spec a b) as [-> |]; reflexivity.
    - destruct (dget key_eqb _ _); [|discriminate]. now injection E as <-.
    - unfold snapshot in E. destruct (a_x _) as [l|]; [|now injection E as <-].
      destruct (_ || _); [|now injection E as <-]. destruct (copy _ _) as [[h lh]|]; [|discriminate].
      destruct (h_set _ _ _) as [hist| |] eqn:Es; injection E as <-; cbn; try reflexivity.
      destruct (Nat.eqb a b) eqn:Hb; [|reflexivity]. apply Nat.eqb_eq in Hb. subst b. cbn.
      unfold h_set in Es. destruct (it <? 0)%Z; [discriminate|]. injection Es as <-. cbn.
      apply (dget_dset_neq _ _ Z.eqb Z.eqb_spec). intros ->. apply Hn. auto.
    - unfold guard in E. destruct (holds st l) eqn:Hh; [|discriminate]. unfold send in E.
      destruct (nth_error (s_heap st) l) as [v|] eqn:Hl; [|discriminate].
      destruct c as [|f]; cbn [new] in E; apply deliver_app in E;
        try (cbn; rewrite !app_length; cbn; lia); destruct E as (_ & _ & Ha & _);
        destruct (Ha a) as (_ & -> & _); reflexivity.
    - now injection E as <-.
  Qed.
  Lemma hist_dget_steps os a k : forall (st st' : state), execs st os = Some st' ->
    (forall o, In o os -> ~ rerecords a k o) ->
    dget Z.eqb (h_dict (a_hist (s_agent st' a))) k = dget Z.eqb (h_dict (a_hist (s_agent st a))) k.
  Proof.
    induction os as [|o os IH]; intros st st' E Hn; cbn in E; [now injection E as <-|].
    destruct (exec st o) as [st1|] eqn:E1; [|discriminate]. rewrite (IH _ _ E); [|intros; apply Hn; now right].
    eapply hist_dget_step; eauto. apply Hn. now left.
  Qed.

  Lemma x_step (st st' : state) o a : exec st o = Some st' -> ~ touches_x a o ->
    a_x (s_agent st' a) = a_x (s_agent st a).
  Proof.
    destruct o as [v|l v|b x aux|b|b l|b|b d|r ch s|b it force|s ch l c rs noise|]; cbn [Heap.exec touches_x]; intros E Hn.
    - cbn in E. now injection E as <-.
    - unfold guard in E. destruct (holds st l); [|discriminate]. now injection E as <-.
    - unfold guard in E. destruct (_ && _); [|discriminate]. unfold initialize in E.
      assert (Hb : Nat.eqb a b = false) by (apply Nat.eqb_neq; congruence).
      destruct x as [lx|].
      + destruct (nth_error _ _) as [v|]; [|discriminate]. destruct (shape_ok b v).
        * cbn [new h_set] in E. cbv beta iota in E. destruct aux as [d|].
          -- destruct (copy_dict _ _); [|discriminate]. cbn in E. injection E as <-. cbn. now rewrite Hb.
          -- injection E as <-. cbn. now rewrite Hb.
        * injection E as <-. cbn. now rewrite Hb.
      + destruct aux as [d|].
        -- destruct (copy_dict _ _); [|discriminate]. cbn in E. injection E as <-. cbn. now rewrite Hb.
        -- injection E as <-. cbn. now rewrite Hb.
    - destruct (a_x (s_agent st b)); [|discriminate]. now injection E as <-.
    - unfold guard in E. destruct (holds st l); [|discriminate]. injection E as <-. cbn.
      destruct (Nat.eqb_spec a b) as [-> |]; [now destruct Hn|reflexivity].
    - now injection E as <-.
    - unfold guard in E. destruct (holds_all _ _); [|discriminate]. injection E as <-. cbn.
      destruct (Nat.eqb_spec a b) as [-> |]; reflexivity.
    - destruct (dget key_eqb _ _); [|discriminate]. now injection E as <-.
    - unfold snapshot in E. destruct (a_x (s_agent st b)) as [l|] eqn:Hx; [|now injection E as <-].
      destruct (_ || _); [|now injection E as <-]. destruct (copy _ _) as [[h lh]|]; [|discriminate].
      destruct (h_set _ _ _) as [hist| |] eqn:Es; injection E as <-; cbn; try reflexivity.
      destruct (Nat.eqb_spec a b) as [-> |]; cbn; auto.
    - unfold guard in E. destruct (holds st l) eqn:Hh; [|discriminate]. unfold send in E.
      destruct (nth_error (s_heap st) l) as [v|] eqn:Hl; [|discriminate].
      destruct c as [|f]; cbn [new] in E; apply deliver_app in E;
        try (cbn; rewrite !app_length; cbn; lia); destruct E as (_ & _ & Ha & _);
        destruct (Ha a) as (-> & _ & _); reflexivity.
    - now injection E as <-.
  Qed.
  Lemma x_steps os a : forall (st st' : state), execs st os = Some st' ->
    (forall o, In o os -> ~ touches_x a o) -> a_x (s_agent st' a) = a_x (s_agent st a).
  Proof.
    induction os as [|o os IH]; intros st st' E Hn; cbn in E; [now injection E as <-|].
    destruct (exec st o) as [st1|] eqn:E1; [|discriminate]. rewrite (IH _ _ E); [|intros; apply Hn; now right].
    eapply x_step; eauto. apply Hn. now left.
  Qed.

  Lemma deliver_other s ch l v rs r k : ~ In r rs \/ k <> (ch, s) -> forall noise (st st' : state),
    deliver vadd st s ch l v rs noise = Some st' ->
    dget key_eqb (a_inbox (s_agent st' r)) k = dget key_eqb (a_inbox (s_agent st r)) k.
  Proof.
    intros Hr. induction rs as [|q rs IH]; intros noise st st' E; cbn [deliver] in E.
    - now injection E as <-.
    - assert (Hr' : ~ In r rs \/ k <> (ch, s)) by (destruct Hr as [H|H]; [left; intros Hi; apply H; now right|auto]).
      assert (D : forall st1 : state, (forall b, s_agent st1 b = s_agent st b) -> forall l',
                dget key_eqb (a_inbox (s_agent (deliver1 st1 s ch q l') r)) k = dget key_eqb (a_inbox (s_agent st r)) k).
      { intros st1 Ha l'. cbn. rewrite Ha. destruct (Nat.eqb r q) eqn:Erq; [|now rewrite Ha].
        apply Nat.eqb_eq in Erq. subst q. cbn. rewrite (dget_dset_neq _ _ key_eqb key_eqb_spec); [reflexivity|].
        destruct Hr as [H|H]; [exfalso; apply H; now left|congruence]. }
      destruct noise as [[|n ns]|]; [discriminate| |].
      + cbn [new] in E. apply (IH Hr') in E. rewrite E. now rewrite D.
      + apply (IH Hr') in E. rewrite E. now rewrite D.
  Qed.

  Lemma msg_step (st st' : state) o r ch s : exec st o = Some st' -> ~ replaces_message r ch s o ->
    dget key_eqb (a_inbox (s_agent st' r)) (ch, s) = dget key_eqb (a_inbox (s_agent st r)) (ch, s).
  Proof.
    destruct o as [v|l v|b x aux|b|b l|b|b d|r' ch' s'|b it force|s' ch' l c rs noise|];
      cbn [Heap.exec replaces_message]; intros E Hn.
    - cbn in E. now injection E as <-.
    - unfold guard in E. destruct (holds st l); [|discriminate]. now injection E as <-.
    - unfold guard in E. destruct (_ && _); [|discriminate]. unfold initialize in E.
      assert (Hb : Nat.eqb r b = false) by (apply Nat.eqb_neq; congruence).
      destruct x as [lx|].
      + destruct (nth_error _ _) as [v|]; [|discriminate]. destruct (shape_ok b v).
        * cbn [new h_set] in E. cbv beta iota in E. destruct aux as [d|].
          -- destruct (copy_dict _ _); [|discriminate]. cbn in E. injection E as <-. cbn. now rewrite Hb.
          -- injection E as <-. cbn. now rewrite Hb.
        * injection E as <-. cbn. now rewrite Hb.
      + destruct aux as [d|].
        -- destruct (copy_dict _ _); [|discriminate]. cbn in E. injection E as <-. cbn. now rewrite Hb.
        -- injection E as <-. cbn. now rewrite Hb.
    - destruct (a_x _); [|discriminate]. now injection E as <-.
    - unfold guard in E. destruct (holds st l); [|discriminate]. injection E as <-. cbn.
      destruct (Nat.eqb_spec r b) as [-> |]; reflexivity.
    - now injection E as <-.
    - unfold guard in E. destruct (holds_all _ _); [|discriminate]. injection E as <-. cbn.
      destruct (Nat.eqb_spec r b) as [-> |]; reflexivity.
    - destruct (dget key_eqb (a_inbox (s_agent st r')) _); [|discriminate]. now injection E as <-.
    - unfold snapshot in E. destruct (a_x _) as [l|]; [|now injection E as <-].
      destruct (_ || _); [|now injection E as <-]. destruct (copy _ _) as [[h lh]|]; [|discriminate].
      destruct (h_set _ _ _) as [hist| |] eqn:Es; injection E as <-; cbn; try reflexivity.
      destruct (Nat.eqb_spec r b) as [-> |]; reflexivity.
    - unfold guard in E. destruct (holds st l) eqn:Hh; [|discriminate]. unfold send in E.
      destruct (nth_error (s_heap st) l) as [v|] eqn:Hl; [|discriminate].
      assert (Hr : ~ In r rs \/ (ch, s) <> (ch', s')).
      { destruct (in_dec Nat.eq_dec r rs) as [Hi|Hi]; [right|now left].
        intros [= -> ->]. apply Hn. auto. }
      destruct c as [|f]; cbn [new] in E; apply (deliver_other _ _ _ _ _ _ _ Hr) in E; exact E.
    - now destruct Hn.
  Qed.
  Lemma msg_steps os r ch s : forall (st st' : state), execs st os = Some st' ->
    (forall o, In o os -> ~ replaces_message r ch s o) ->
    dget key_eqb (a_inbox (s_agent st' r)) (ch, s) = dget key_eqb (a_inbox (s_agent st r)) (ch, s).
  Proof.
    induction os as [|o os IH]; intros st st' E Hn; cbn in E; [now injection E as <-|].
    destruct (exec st o) as [st1|] eqn:E1; [|discriminate]. rewrite (IH _ _ E); [|intros; apply Hn; now right].
    eapply msg_step; eauto. apply Hn. now left.
  Qed.

  (** ** what a delivery puts where *)
  Lemma deliver_gets s ch l v rs : NoDup rs -> forall noise (st st' : state),
    deliver vadd st s ch l v rs noise = Some st' -> nth_error (s_heap st) l = Some v ->
    wf st -> (forall r k, ~ In (k, l) (a_inbox (s_agent st r))) ->
    forall i r, nth_error rs i = Some r ->
    exists l', dget key_eqb (a_inbox (s_agent st' r)) (ch, s) = Some l'
      /\ match noise with None => l' = l | Some _ => (length (s_heap st) <= l')%nat end
      /\ content st' l' = match noise with None => Some v | Some ns => option_map (vadd v) (nth_error ns i) end
      /\ (l' < length (s_heap st'))%nat
      /\ (forall q k, In (k, l') (a_inbox (s_agent st' q)) -> k = (ch, s) /\ match noise with None => In q rs | Some _ => q = r end).
  Proof.
    induction rs as [|q rs IH]; intros Hnd noise st st' E Hl W Hno i r Hi; [now destruct i|].
    inversion Hnd as [|? ? Hq Hnd']; subst. cbn [deliver] in E.
    assert (Hlen : (l < length (s_heap st))%nat) by (apply nth_error_Some; congruence).
    destruct noise as [[|n ns]|]; [discriminate| |].
    - cbn [new] in E.
      set (st1 := deliver1 (mkState (s_heap st ++ [vadd v n]) (s_agent st) (s_refs st)) s ch q (length (s_heap st))) in E.
      assert (Hl1 : nth_error (s_heap st1) l = Some v) by (cbn; now rewrite nth_ext).
      assert (W1 : wf st1).
      { intros l' [H|a H|a H|q' k H]; cbn in H |- *; rewrite app_length; cbn.
        - pose proof (W l' (ex_ref _ _ H)); lia.
        - destruct (Nat.eqb a q) eqn:Eab; [apply Nat.eqb_eq in Eab; subst a|]; cbn in H; pose proof (W l' (ex_x _ _ _ H)); lia.
        - destruct (Nat.eqb a q) eqn:Eab; [apply Nat.eqb_eq in Eab; subst a|]; cbn in H; pose proof (W l' (ex_aux _ _ _ H)); lia.
        - destruct (Nat.eqb q' q) eqn:Eab; [apply Nat.eqb_eq in Eab; subst q'|]; cbn in H; [|pose proof (W l' (ex_msg _ _ _ _ H)); lia].
          apply (In_dset _ key_eqb_spec) in H. destruct H as [[_ ->]|H]; [lia|pose proof (W l' (ex_msg _ _ _ _ H)); lia]. }
      assert (Hno1 : forall r k, ~ In (k, l) (a_inbox (s_agent st1 r))).
      { intros r' k. cbn. destruct (Nat.eqb r' q) eqn:Eab; [apply Nat.eqb_eq in Eab; subst r'|]; cbn; [|apply Hno].
        intros H. apply (In_dset _ key_eqb_spec) in H. destruct H as [[_ H]|H]; [lia|now apply Hno in H]. }
      destruct i as [|i].
      + cbn in Hi. injection Hi as <-. exists (length (s_heap st)).
        pose proof (deliver_other _ _ _ _ _ q (ch, s) (or_introl Hq) _ _ _ E) as D. rewrite D. cbn.
        rewrite Nat.eqb_refl. cbn. rewrite (dget_dset_eq _ _ key_eqb key_eqb_spec).
        apply deliver_app in E; [|cbn; rewrite app_length; lia]. destruct E as ((e & He) & Hr & Ha & Hm).
        split; [reflexivity|]. split; [lia|]. split.
        { unfold content. rewrite He. cbn. rewrite <- app_assoc, nth_error_app2, Nat.sub_diag by lia. reflexivity. }
        split; [rewrite He; cbn; rewrite !app_length; cbn; lia|].
        intros q' k H. apply Hm in H. destruct H as [H|[H|H]].
        * cbn in H. destruct (Nat.eqb q' q) eqn:Eab; [apply Nat.eqb_eq in Eab; subst q'|]; cbn in H.
          -- apply (In_dset _ key_eqb_spec) in H. destruct H as [[-> _]|H]; [auto|].
             pose proof (W _ (ex_msg _ _ _ _ H)); lia.
          -- pose proof (W _ (ex_msg _ _ _ _ H)); lia.
        * lia.
        * cbn in H. rewrite app_length in H. cbn in H. lia.
      + cbn in Hi. destruct (IH Hnd' _ _ _ E Hl1 W1 Hno1 _ _ Hi) as (l' & D & HL & C & B & U).
        exists l'. split; [exact D|]. split; [cbn in HL; rewrite app_length in HL; lia|]. split; [exact C|]. auto.
    - set (st1 := deliver1 st s ch q l) in E.
      destruct (deliver_app _ _ _ _ _ _ _ _ E) as ((e & He) & Hr & Ha & Hm); [exact Hlen|].
      assert (Cn : content st' l = Some v) by (unfold content; rewrite He; cbn; now rewrite nth_ext).
      assert (B : (l < length (s_heap st'))%nat) by (rewrite He, app_length; cbn; lia).
      exists l. split.
      + assert (G : forall rs (st0 st' : state), deliver vadd st0 s ch l v rs None = Some st' ->
                  (In r rs \/ dget key_eqb (a_inbox (s_agent st0 r)) (ch, s) = Some l) ->
                  dget key_eqb (a_inbox (s_agent st' r)) (ch, s) = Some l).
        { clear. intros rs. induction rs as [|q rs IH]; intros st0 st' E Hr; cbn [deliver] in E.
          - injection E as <-. now destruct Hr as [[]|].
          - apply IH in E; [exact E|]. cbn. destruct (Nat.eqb r q) eqn:Erq.
            + right. cbn. apply Nat.eqb_eq in Erq. subst q. apply (dget_dset_eq _ _ key_eqb key_eqb_spec).
            + apply Nat.eqb_neq in Erq. destruct Hr as [[H|H]|H]; [congruence|now left|now right]. }
        apply (G _ _ _ E). destruct i as [|i]; cbn in Hi.
        * right. injection Hi as <-. cbn. rewrite Nat.eqb_refl. cbn. apply (dget_dset_eq _ _ key_eqb key_eqb_spec).
        * left. now apply nth_error_In in Hi.
      + split; [reflexivity|]. split; [exact Cn|]. split; [exact B|].
        assert (G : forall rs (st0 st' : state), deliver vadd st0 s ch l v rs None = Some st' ->
                  forall q k, In (k, l) (a_inbox (s_agent st' q)) ->
                  In (k, l) (a_inbox (s_agent st0 q)) \/ (k = (ch, s) /\ In q rs)).
        { clear. intros rs. induction rs as [|q rs IH]; intros st0 st' E q' k H; cbn [deliver] in E.
          - injection E as <-. auto.
          - apply (IH _ _ E) in H. destruct H as [H|[-> H]]; [|right; split; [reflexivity|now right]].
            cbn in H. destruct (Nat.eqb q' q) eqn:Eab; [apply Nat.eqb_eq in Eab; subst q'|]; [|now left]. cbn in H.
            apply (In_dset _ key_eqb_spec) in H. destruct H as [[-> _]|H]; [right; split; [reflexivity|now left]|now left]. }
        intros q' k H. apply (G _ _ _ E) in H. destruct H as [H|[-> H]]; [|split; [reflexivity|now right]].
        cbn in H. destruct (Nat.eqb q' q) eqn:Eab; [apply Nat.eqb_eq in Eab; subst q'|]; cbn in H; [|now apply Hno in H].
        apply (In_dset _ key_eqb_spec) in H. destruct H as [[-> _]|H]; [|now apply Hno in H].
        split; [reflexivity|now left].
  Qed.
End HP.
