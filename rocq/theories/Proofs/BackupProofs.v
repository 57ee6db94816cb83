(** Facts for C106. *)
From Coq Require Import List Bool Arith ZArith Lia.
From Verif.Model Require Import PyDict History Messages Network Runner Checkpoint Benchmark Backup.
From Verif.Spec Require Import BenchmarkSpec BackupSpec.
From Verif.Proofs Require Import PyDictProofs BenchmarkProofs.
Import ListNotations.
Open Scope nat_scope.

Section P.
  Context {V St : Type}.
  Notation place := (place V St).
  Notation op := (op V St).
  Definition zip_op (o : op) : Prop := match o with ZipOpen _ | ZipClose _ => True | _ => False end.
  Lemma acts_app (a b : list op) s : acts (a ++ b) s = acts b (acts a s).
  Proof. unfold acts. apply fold_left_app. Qed.
  Lemma zips_same (l : list op) s : (forall o, In o l -> ~ zip_op o) -> at_zips (acts l s) = at_zips s.
  Proof.
    revert s. induction l as [|o l IH]; intros s H; [reflexivity|]. cbn. change (fold_left act l (act s o)) with (acts l (act s o)).
    rewrite IH by (intros; apply H; now right). specialize (H o (or_introl eq_refl)). destruct o; cbn in *; try reflexivity; tauto.
  Qed.
  Lemma in_firstn {A} k (l : list A) x : In x (firstn k l) -> In x l.
  Proof. rewrite <- (firstn_skipn k l) at 2. intro H. apply in_or_app. now left. Qed.
  Lemma no_zip_firstn k (l : list op) : (forall o, In o l -> ~ zip_op o) -> forall o, In o (firstn k l) -> ~ zip_op o.
  Proof. intros H o I. apply H. eapply in_firstn; eauto. Qed.
  Lemma no_zip_in_dir (l : list (beffect V St)) o : In o (map InDir l) -> ~ zip_op o.
  Proof. intros I. apply in_map_iff in I. destruct I as (x & <- & _). cbn. tauto. Qed.
  Lemma dset_other {B} (z : list (nat * B)) t t' v : t <> t' -> dget Nat.eqb (dset Nat.eqb z t v) t' = dget Nat.eqb z t'.
  Proof. intro N. rewrite (dget_dset _ _ Nat.eqb Nat.eqb_spec). destruct (Nat.eqb_spec t' t); congruence. Qed.
  Lemma dset_same {B} (z : list (nat * B)) t v : dget Nat.eqb (dset Nat.eqb z t v) t = Some v.
  Proof. rewrite (dget_dset _ _ Nat.eqb Nat.eqb_spec). now rewrite Nat.eqb_refl. Qed.

  Lemma benchmark_inv dup algs p n (s : place) pre pl : benchmark_call dup algs p n s = Some (pre, pl) -> (forall o, In o pre -> ~ zip_op o).
  Proof.
    unfold benchmark_call. destruct dup; [discriminate|]. destruct (match at_dir s with Some c => is_empty c | None => true end); [|discriminate].
    intros E. injection E as <- <-. intros o I. cbn [In initialize map app] in I. repeat (destruct I as [<-|I]; [cbn; tauto|]).
    apply in_map_iff in I. destruct I as (a & <- & _). cbn. tauto.
  Qed.
  Lemma resume_inv b inc_i inc_t t (s : place) pre pl : resume_call b inc_i inc_t t s = Some (pre, pl) ->
    exists c, at_dir s = Some c /\ is_empty c = false /\ (0 <= inc_i)%Z /\ (0 <= inc_t)%Z /\ resume (Z.to_nat inc_i) (Z.to_nat inc_t) (c_files c) = Some pl /\
      pre = (if b then [ZipOpen t; ZipClose t] else []) ++ map InDir (pl_prep pl) /\ (b = true -> dget Nat.eqb (at_zips s) t = None).
  Proof.
    unfold resume_call. destruct (at_dir s) as [c|] eqn:D; [|discriminate]. destruct (is_empty c) eqn:EM; [discriminate|].
    destruct (Z.ltb_spec inc_i 0); [discriminate|]. destruct (Z.ltb_spec inc_t 0); [discriminate|].
    destruct (resume _ _ _) as [q|] eqn:R; [|discriminate]. destruct b.
    - unfold create_backup. rewrite D. destruct (dmem Nat.eqb (at_zips s) t) eqn:M; [discriminate|]. intros E. injection E as <- <-.
      exists c. repeat split; auto. intros _. unfold dmem in M. now destruct (dget Nat.eqb (at_zips s) t).
    - intros E. injection E as <- <-. exists c. repeat split; auto. discriminate.
  Qed.
  Lemma backup_inv t (s : place) l : create_backup t s = Some l -> exists c, at_dir s = Some c /\ l = [ZipOpen t; ZipClose t] /\ dget Nat.eqb (at_zips s) t = None.
  Proof.
    unfold create_backup. destruct (dmem Nat.eqb (at_zips s) t) eqn:M; [discriminate|]. destruct (at_dir s) as [c|]; [|discriminate].
    intros E. injection E as <-. exists c. repeat split; auto. unfold dmem in M. now destruct (dget Nat.eqb (at_zips s) t).
  Qed.

  (** archives of other times stay while an archive is written, and what follows *)
  Lemma zip_phase t (r : list op) k (s : place) c0 : at_dir s = Some c0 -> (forall o, In o r -> ~ zip_op o) ->
    let s' := acts (firstn k ([ZipOpen t; ZipClose t] ++ r)) s in
    (forall t', t <> t' -> dget Nat.eqb (at_zips s') t' = dget Nat.eqb (at_zips s) t') /\
    (at_dir s' = Some c0 \/ backed_up s' t c0) /\ (1 < k -> backed_up s' t c0).
  Proof.
    intros D NZ. destruct k as [|[|k]]; cbn [firstn app].
    - split; [reflexivity|]. split; [now left|lia].
    - cbn. split; [intros t' N; now apply dset_other|]. split; [now left|lia].
    - change (acts (ZipOpen t :: ZipClose t :: firstn k r) s) with (acts (firstn k r) (act (act s (ZipOpen t)) (ZipClose t))).
      unfold backed_up. rewrite (zips_same (firstn k r)) by now apply no_zip_firstn. cbn. rewrite D. cbn.
      split; [intros t' N; now rewrite !dset_other|]. rewrite dset_same. auto.
  Qed.
  Lemma call_keeps step keep (s : place) l k t c : call step keep s l -> backed_up s t c -> backed_up (acts (firstn k l) s) t c.
  Proof.
    intros C B. unfold backed_up in *.
    assert (SIMPLE : (forall o, In o l -> ~ zip_op o) -> dget Nat.eqb (at_zips (acts (firstn k l) s)) t = Some (Full c)).
    { intros H. rewrite zips_same; auto. now apply no_zip_firstn. }
    destruct C as [dup algs p n l W|b inc_i inc_t t0 l W|t0 l W|how|e].
    - destruct (benchmark_call dup algs p n s) as [(pre, pl)|] eqn:E; cbn in W; [|subst; now apply SIMPLE].
      destruct W as (e & c1 & _ & _ & ->). apply SIMPLE. intros o I. apply in_app_or in I. destruct I as [I|I]; [eapply benchmark_inv; eauto|eapply no_zip_in_dir; eauto].
    - destruct (resume_call b inc_i inc_t t0 s) as [(pre, pl)|] eqn:E; cbn in W; [|subst; now apply SIMPLE].
      destruct W as (e & c1 & _ & _ & ->). destruct (resume_inv _ _ _ _ _ _ _ E) as (c0 & D & _ & _ & _ & _ & -> & F). destruct b.
      + rewrite <- app_assoc. pose proof (zip_phase t0 (map InDir (pl_prep pl) ++ map InDir e) k s c0 D) as Z. cbv zeta in Z.
        assert (N : t0 <> t) by (intros ->; rewrite F in B by auto; discriminate). rewrite (proj1 (Z ltac:(intros o I; apply in_app_or in I; destruct I; eapply no_zip_in_dir; eauto))); auto.
      + apply SIMPLE. intros o I. cbn in I. apply in_app_or in I. destruct I; eapply no_zip_in_dir; eauto.
    - destruct (backup_inv _ _ _ W) as (c0 & D & -> & F). assert (N : t0 <> t) by (intros ->; rewrite F in B; discriminate).
      pose proof (zip_phase t0 [] k s c0 D ltac:(intros o [])) as Z. cbv zeta in Z. rewrite app_nil_r in Z. rewrite (proj1 Z); auto.
    - apply SIMPLE. intros o I. unfold clear in I. destruct (at_dir s); [|destruct I]. apply in_app_or in I. destruct I as [I|[<-|[]]]; [|cbn; tauto]. apply in_map_iff in I. destruct I as (x & <- & _). cbn. tauto.
    - apply SIMPLE. intros o I. eapply no_zip_in_dir; eauto.
  Qed.
  Lemma dir_follow q (s : place) f : option_map c_files (at_dir s) = Some f -> option_map c_files (at_dir (acts (map InDir q) s)) = Some (bapply_all q f).
  Proof.
    unfold bapply_all. revert f s. induction q as [|x q IH]; intros f s D2; [exact D2|].
    cbn. apply (IH (bapply f x)). unfold act, in_dir. destruct (at_dir s) as [c2|]; [|discriminate]. injection D2 as <-. reflexivity.
  Qed.
  Lemma resume_prepares b inc_i inc_t t (s : place) c pre pl : resume_call b inc_i inc_t t s = Some (pre, pl) -> at_dir s = Some c ->
    option_map c_files (at_dir (acts pre s)) = Some (prepared pl (c_files c)).
  Proof.
    intros E D. destruct (resume_inv _ _ _ _ _ _ _ E) as (c0 & D0 & _ & _ & _ & _ & -> & _). assert (c0 = c) as -> by congruence.
    rewrite acts_app. apply dir_follow. destruct b; cbn; rewrite ?D; cbn; rewrite ?D; reflexivity.
  Qed.
  Lemma goes_whole step keep b inc_i inc_t t (s : place) c pre pl : resume_call b inc_i inc_t t s = Some (pre, pl) -> at_dir s = Some c ->
    whole_run step keep (resume_call b inc_i inc_t t s) s (pre ++ map InDir (one_by_one step keep pl (prepared pl (c_files c)))).
  Proof.
    intros E D. pose proof (resume_prepares _ _ _ _ _ _ _ _ E D) as P. rewrite E. destruct (at_dir (acts pre s)) as [c'|] eqn:D'; [|discriminate]. cbn in P. injection P as P.
    exists (one_by_one step keep pl (prepared pl (c_files c))), c'. split; [exact D'|]. split; [|reflexivity]. rewrite P. apply one_by_one_interleaving.
  Qed.
  Lemma resume_goes (s : place) c t pl inc_i inc_t : at_dir s = Some c -> is_empty c = false -> (0 <= inc_i)%Z -> (0 <= inc_t)%Z ->
    resume (Z.to_nat inc_i) (Z.to_nat inc_t) (c_files c) = Some pl -> dget Nat.eqb (at_zips s) t = None ->
    resume_call true inc_i inc_t t s = Some ([ZipOpen t; ZipClose t] ++ map InDir (pl_prep pl), pl).
  Proof.
    intros D EM I T E Z. unfold resume_call. rewrite D, EM. destruct (Z.ltb_spec inc_i 0); [lia|]. destruct (Z.ltb_spec inc_t 0); [lia|]. rewrite E.
    unfold create_backup, dmem. rewrite Z, D. reflexivity.
  Qed.
  Lemma goes_whole_at step keep b inc_i inc_t t (s : place) f ds pre pl : resume_call b inc_i inc_t t s = Some (pre, pl) -> at_dir s = Some (mkContent f ds) ->
    whole_run step keep (resume_call b inc_i inc_t t s) s (pre ++ map InDir (one_by_one step keep pl (prepared pl f))).
  Proof. apply goes_whole. Qed.
  Lemma resume_goes_at (s : place) f ds t pl inc_i inc_t : at_dir s = Some (mkContent f ds) -> is_empty (mkContent f ds) = false -> (0 <= inc_i)%Z -> (0 <= inc_t)%Z ->
    forall i j, Z.to_nat inc_i = i -> Z.to_nat inc_t = j -> resume i j f = Some pl -> dget Nat.eqb (at_zips s) t = None ->
    resume_call true inc_i inc_t t s = Some ([ZipOpen t; ZipClose t] ++ map InDir (pl_prep pl), pl).
  Proof. intros D EM I T i j <- <- R Z. eapply resume_goes; eauto. Qed.
  Lemma torn_not_at (s : place) f ds : at_dir s = Some (mkContent f ds) -> forall m, option_map (fun c => b_meta (c_files c)) (at_dir s) = Some m -> b_meta f = m.
  Proof. intros -> m E. now injection E. Qed.
End P.
