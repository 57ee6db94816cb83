(** C106: backups and the life of a checkpoint directory. *)
From Coq Require Import List Bool Arith ZArith Lia Permutation.
From Verif.Model Require Import PyDict History Messages Network Runner Checkpoint Benchmark Backup.
From Verif.Spec Require Import RunnerSpec CheckpointSpec BenchmarkSpec BackupSpec.
From Verif.Proofs Require Import PyDictProofs CheckpointProofs BenchmarkProofs BackupProofs.
From Verif.Props Require Import RunnerProps CheckpointProps BenchmarkProps.
Import ListNotations.
Open Scope nat_scope.

Section C106.
  Context {V St : Type}.
  Notation place := (place V St).

  (** A resume with backup: wherever it is killed, either the directory is as it was
      or the archive is complete and holds what it was; at the end the latter. *)
  Theorem C106_backup_before_any_change step keep inc_i inc_t t (s : place) c l k :
    at_dir s = Some c -> whole_run step keep (resume_call true inc_i inc_t t s) s l ->
    at_dir (acts (firstn k l) s) = Some c \/ backed_up (acts (firstn k l) s) t c.
  Proof.
    intros D W. destruct (resume_call true inc_i inc_t t s) as [(pre, pl)|] eqn:E; cbn in W; [|subst l; rewrite firstn_nil; now left].
    destruct W as (e & c1 & _ & _ & ->). destruct (resume_inv _ _ _ _ _ _ _ E) as (c0 & D' & _ & _ & _ & _ & -> & F). rewrite <- app_assoc.
    apply (zip_phase t (map InDir (pl_prep pl) ++ map InDir e) k s c D). intros o I. apply in_app_or in I. destruct I; eapply no_zip_in_dir; eauto.
  Qed.
  Theorem C106_resumed_is_backed_up step keep inc_i inc_t t (s : place) c l :
    at_dir s = Some c -> resume_call true inc_i inc_t t s <> None -> whole_run step keep (resume_call true inc_i inc_t t s) s l -> backed_up (acts l s) t c.
  Proof.
    intros D N W. destruct (resume_call true inc_i inc_t t s) as [(pre, pl)|] eqn:E; [|congruence]. cbn in W.
    destruct W as (e & c1 & _ & _ & ->). destruct (resume_inv _ _ _ _ _ _ _ E) as (c0 & D' & _ & _ & _ & _ & -> & F). rewrite <- app_assoc.
    pose proof (zip_phase t (map InDir (pl_prep pl) ++ map InDir e) (length ([ZipOpen t; ZipClose t] ++ (map InDir (pl_prep pl) ++ map InDir e))) s c D) as Z. cbv zeta in Z.
    rewrite firstn_all in Z. apply Z; [intros o I; apply in_app_or in I; destruct I; eapply no_zip_in_dir; eauto|cbn; lia].
  Qed.
  (** A complete archive is never changed, whatever is called and killed afterwards,
      [clear] and further backups included. *)
  Theorem C106_backups_kept (s s' : place) t c : life s s' -> backed_up s t c -> backed_up s' t c.
  Proof.
    induction 1 as [s|s step keep l k s' C L IH|s t0 s1 s' U L IH]; intros B; auto.
    - apply IH. eapply call_keeps; eauto.
    - apply IH. unfold unpack in U. destruct (dget Nat.eqb (at_zips s) t0) as [[|x]|]; try discriminate. injection U as <-. exact B.
  Qed.
  (** Together: after a resume with backup that was killed anywhere, and whatever
      happened later, either that resume had changed nothing or unpacking its
      archive brings back the directory it started from. *)
  Theorem C106_state_recovered step keep inc_i inc_t t (s : place) c l k s' :
    at_dir s = Some c -> whole_run step keep (resume_call true inc_i inc_t t s) s l -> life (acts (firstn k l) s) s' ->
    at_dir (acts (firstn k l) s) = Some c \/ exists s1, unpack t s' = Some s1 /\ at_dir s1 = Some c.
  Proof.
    intros D W L. destruct (C106_backup_before_any_change step keep inc_i inc_t t s c l k D W) as [X|B]; [now left|right].
    pose proof (C106_backups_kept _ _ t c L B) as B'. unfold backed_up in B'. unfold unpack. rewrite B'. eexists. split; reflexivity.
  Qed.
  (** ... and resuming from there returns, for every trial, what it would have
      returned had nothing ever been interrupted. Here [s'] may be any later state of
      the place: metadata.json torn, the directory cleared or overwritten. *)
  Theorem C106_results_recovered step keep inc_i inc_t t (s : place) c l k s' algs p n reqs :
    supported algs p -> at_dir s = Some c -> history step algs p n reqs (c_files c) -> extended (c_files c) = false ->
    whole_run step keep (resume_call true inc_i inc_t t s) s l -> 1 < k <= length l -> life (acts (firstn k l) s) s' ->
    exists s1, unpack t s' = Some s1 /\
    forall b t1 inc keep1 pre pl arrivals, 1 <= keep1 -> resume_call b 0 inc t1 s1 = Some (pre, pl) ->
      (forall a, Permutation (arrivals a) (to_run (pl_trials pl) a (prepared pl (c_files c)))) ->
      option_map c_files (at_dir (acts pre s1)) = Some (prepared pl (c_files c)) /\
      exists rs, results step keep1 pl (prepared pl (c_files c)) arrivals = Some rs /\
        forall a A, nth_error algs a = Some A -> exists r order, nth_error rs a = Some r /\ Permutation order (seq 0 (pl_trials pl)) /\
          Forall2 (fun i x => exists w, same_but [] w (r_world (run (p_topo p) (p_period p) A 0 (p_start p a i))) /\ network_of p w x) order r.
  Proof.
    intros SU D H EX W K L.
    assert (B : backed_up (acts (firstn k l) s) t c).
    { destruct (resume_call true inc_i inc_t t s) as [(pre, pl)|] eqn:E; cbn in W; [|subst l; cbn in K; lia].
      destruct W as (e & c1 & _ & _ & ->). destruct (resume_inv _ _ _ _ _ _ _ E) as (c0 & D' & _ & _ & _ & _ & -> & F). rewrite <- app_assoc.
      apply (zip_phase t (map InDir (pl_prep pl) ++ map InDir e) k s c D); [intros o I; apply in_app_or in I; destruct I; eapply no_zip_in_dir; eauto|lia]. }
    pose proof (C106_backups_kept _ _ t c L B) as B'. unfold backed_up in B'. unfold unpack. rewrite B'. eexists. split; [reflexivity|].
    intros b t1 inc keep1 pre pl arrivals KP RC AR. destruct (resume_inv _ _ _ _ _ _ _ RC) as (c0 & D0 & _ & _ & _ & RS & -> & _). cbn in D0. injection D0 as <-.
    split.
    - exact (resume_prepares _ _ _ _ _ c _ _ RC eq_refl).
    - exact (C42_benchmark_resume_partial V St step algs p n reqs (c_files c) (Z.to_nat inc) pl keep1 arrivals SU H EX KP RS AR).
  Qed.

  (** When a resume is refused; it has changed nothing then. *)
  Theorem C106_resume_refused backup inc_i inc_t t (s : place) :
    resume_call backup inc_i inc_t t s = None <->
    match at_dir s with
    | None => True
    | Some c => is_empty c = true \/ (inc_i < 0)%Z \/ (inc_t < 0)%Z \/
        (forall m p algs, ~ (b_meta (c_files c) = Some (Full m) /\ b_prob (c_files c) = Some (Full p) /\ b_algs (c_files c) = Some (Full algs))) \/
        (backup = true /\ exists f, dget Nat.eqb (at_zips s) t = Some f)
    end.
  Proof.
    unfold resume_call. destruct (at_dir s) as [c|] eqn:D; [|tauto]. destruct (is_empty c) eqn:EM; [tauto|].
    destruct (Z.ltb_spec inc_i 0); [tauto|]. destruct (Z.ltb_spec inc_t 0); [tauto|].
    assert (RN : resume (Z.to_nat inc_i) (Z.to_nat inc_t) (c_files c) = None <->
      forall m p algs, ~ (b_meta (c_files c) = Some (Full m) /\ b_prob (c_files c) = Some (Full p) /\ b_algs (c_files c) = Some (Full algs))).
    { unfold resume. destruct (b_meta (c_files c)) as [[|m]|]; [split; [intros _ ? ? ? (X & _); discriminate|reflexivity]| |split; [intros _ ? ? ? (X & _); discriminate|reflexivity]].
      destruct (b_prob (c_files c)) as [[|p]|]; [split; [intros _ ? ? ? (_ & X & _); discriminate|reflexivity]| |split; [intros _ ? ? ? (_ & X & _); discriminate|reflexivity]].
      destruct (b_algs (c_files c)) as [[|q]|]; [split; [intros _ ? ? ? (_ & _ & X); discriminate|reflexivity]| |split; [intros _ ? ? ? (_ & _ & X); discriminate|reflexivity]].
      split; [discriminate|]. intros X. exfalso. apply (X m p q). auto. }
    destruct (resume _ _ _) as [pl|] eqn:R; [|tauto]. assert (N : ~ forall m p algs, ~ (b_meta (c_files c) = Some (Full m) /\ b_prob (c_files c) = Some (Full p) /\ b_algs (c_files c) = Some (Full algs))).
    { intros X. apply RN in X. discriminate. }
    unfold create_backup. rewrite D. unfold dmem. destruct backup; [|split; [discriminate|intros [X|[X|[X|[X|(X & _)]]]]; try discriminate; try lia; tauto]].
    destruct (dget Nat.eqb (at_zips s) t) as [f|]; [split; [intros _; right; right; right; right; eauto|reflexivity]|].
    split; [discriminate|]. intros [X|[X|[X|[X|(_ & f & X)]]]]; try discriminate; try lia; tauto.
  Qed.
  (** A new benchmark is refused exactly when two algorithms share a name or the
      directory has any entry: it never writes over a checkpoint. *)
  Theorem C106_benchmark_refused dup algs p n (s : place) :
    benchmark_call dup algs p n s = None <-> dup = true \/ exists c, at_dir s = Some c /\
      (b_meta (c_files c) <> None \/ b_algs (c_files c) <> None \/ b_prob (c_files c) <> None \/ c_dirs c <> []).
  Proof.
    unfold benchmark_call. destruct dup; [tauto|]. destruct (at_dir s) as [c|]; [|split; [discriminate|intros [X|(c & X & _)]; discriminate]].
    unfold is_empty. destruct (b_meta (c_files c)) eqn:E1, (b_algs (c_files c)) eqn:E2, (b_prob (c_files c)) eqn:E3, (c_dirs c) eqn:E4; cbn; split; intros X; try discriminate; try reflexivity;
      try (right; exists c; split; [reflexivity|]; rewrite E1, E2, E3, E4; first [left; discriminate|right; left; discriminate|right; right; left; discriminate|right; right; right; discriminate]).
    destruct X as [X|(c' & Y & X)]; [discriminate|]. injection Y as <-. rewrite E1, E2, E3, E4 in X. intuition congruence.
  Qed.
  (** After [clear] the way is free for a new benchmark. *)
  Theorem C106_clear_then_benchmark how algs p n (s : place) : at_dir (acts (clear how s) s) = None /\ at_zips (acts (clear how s) s) = at_zips s /\
    benchmark_call false algs p n (acts (clear how s) s) <> None.
  Proof.
    assert (D : at_dir (acts (clear how s) s) = None).
    { unfold clear. destruct (at_dir s) eqn:D; [|exact D]. rewrite acts_app. reflexivity. }
    split; [exact D|]. split.
    - apply zips_same. intros o I. unfold clear in I. destruct (at_dir s); [|destruct I]. apply in_app_or in I. destruct I as [I|[<-|[]]]; [|cbn; tauto]. apply in_map_iff in I. destruct I as (x & <- & _). cbn. tauto.
    - unfold benchmark_call. rewrite D. discriminate.
  Qed.
End C106.

(** While a new benchmark writes metadata, algorithms and problem (the operations 2
    to 6), a kill leaves a directory that can neither be resumed nor used for a new
    benchmark; only [clear] helps. *)
Theorem C106_killed_initialize_refuted : forall (V St : Type) (algs : list (alg V St)) p n (s : place V St), at_dir s = None ->
  exists pre pl, benchmark_call false algs p n s = Some (pre, pl) /\ forall k, 2 <= k <= 6 -> let s' := acts (firstn k pre) s in
    (forall b i t tm, resume_call b i t tm s' = None) /\ (forall dup algs' p' n', benchmark_call dup algs' p' n' s' = None).
Proof.
  intros V St algs p n s D. unfold benchmark_call at 1. rewrite D. eexists. eexists. split; [reflexivity|]. intros k K.
  destruct s as (d, z). cbn in D. subst d.
  assert (C : k = 2 \/ k = 3 \/ k = 4 \/ k = 5 \/ k = 6) by lia.
  destruct C as [-> | [-> | [-> | [-> | ->]]]]; cbn [firstn app map initialize]; split; intros;
    try (unfold resume_call; cbn; destruct (i <? 0)%Z; [reflexivity|]; destruct (t <? 0)%Z; reflexivity);
    unfold benchmark_call; cbn; destruct dup; reflexivity.
Qed.
(** From then on it can be resumed. *)
Theorem C106_initialized_resumable : forall (V St : Type) (algs : list (alg V St)) p n (s : place V St) k, at_dir s = None -> 7 <= k ->
  exists pre pl, benchmark_call false algs p n s = Some (pre, pl) /\ resume_call false 0 0 0 (acts (firstn k pre) s) <> None.
Proof.
  intros V St algs p n s k D K. unfold benchmark_call. rewrite D. eexists. eexists. split; [reflexivity|].
  destruct s as (d, z). cbn in D. subst d. do 7 (destruct k as [|k]; [lia|]). cbn [firstn app map initialize].
  change (resume_call false 0 0 0 (acts (firstn k (map MkAlg (seq 0 (length algs)))) (mkPlace (Some (mkContent (prepared (fresh algs p n) empty_b) [])) z)) <> None).
  set (l := firstn k _). assert (M : forall o, In o l -> exists a, o = MkAlg a).
  { intros o I. apply in_firstn in I. apply in_map_iff in I. destruct I as (a & <- & _). eauto. }
  assert (G : forall l ds, (forall o, In o l -> exists a, o = MkAlg a) -> exists ds', at_dir (acts l (mkPlace (Some (mkContent (prepared (fresh algs p n) empty_b) ds)) z)) = Some (mkContent (prepared (fresh algs p n) empty_b) ds')).
  { clear. induction l as [|o l IH]; intros ds H; [eexists; reflexivity|]. destruct (H o (or_introl eq_refl)) as (a & ->). cbn. apply IH. intros; apply H; now right. }
  destruct (G l [] M) as (ds & E). unfold resume_call. rewrite E. cbn. discriminate.
Qed.

(** ---- a concrete life: two trials killed on the way ([b1]), a resume with
    backup at time 5 killed while it rewrites metadata.json, then [clear] ---- *)
Definition pl0 : place nat unit := mkPlace (Some (mkContent b1 [0])) [].
Definition plan5 := the_plan (resume 1 1 b1).
Definition pre5 : list (op nat unit) := [ZipOpen 5; ZipClose 5] ++ map InDir (pl_prep plan5).
Definition ops5 : list (op nat unit) := pre5 ++ map InDir (one_by_one (Some 1) 1 plan5 (prepared plan5 b1)).
Lemma goes11 : (match resume 1 1 b1 with Some _ => true | None => false end) = true.
Proof. vm_compute. reflexivity. Qed.
Lemma b1_there : is_empty (mkContent b1 [0]) = false.
Proof. vm_compute. reflexivity. Qed.
Lemma call5_goes : resume_call true 1 1 5 pl0 = Some (pre5, plan5).
Proof. exact (resume_goes_at pl0 b1 [0] 5 plan5 1 1 eq_refl b1_there ltac:(lia) ltac:(lia) 1 1 eq_refl eq_refl (the_plan_ok (resume 1 1 b1) goes11) eq_refl). Qed.
Lemma ops5_ok : whole_run (Some 1) 1 (resume_call true 1 1 5 pl0) pl0 ops5.
Proof.
  unfold ops5. apply (goes_whole_at (Some 1) 1 true 1 1 5 pl0 b1 [0] pre5 plan5 call5_goes). reflexivity.
Qed.
Definition killed5 : place nat unit := acts (firstn 3 ops5) pl0.
Definition cleared5 : place nat unit := acts (clear [] killed5) killed5.
Lemma then_cleared (s : place nat unit) : life s (acts (clear [] s) s).
Proof. apply (life_call s (Some 1) 1 (clear [] s) (length (clear [] s))); [constructor|]. rewrite firstn_all. constructor. Qed.
Definition meta_at (s : place nat unit) := option_map (fun c => b_meta (c_files c)) (at_dir s).
Lemma torn5 : meta_at killed5 = Some (Some Torn).
Proof. vm_compute. reflexivity. Qed.
Lemma torn_lost s : meta_at s = Some (Some Torn) -> forall b i t tm, resume_call b i t tm s = None.
Proof.
  unfold meta_at. intros M b i t tm. apply C106_resume_refused. destruct (at_dir s) as [c|]; [|exact I]. cbn in M. injection M as M. right; right; right; left. intros m p algs (X & _). congruence.
Qed.
Example C106_lost : (forall b i t tm, resume_call b i t tm killed5 = None) /\ at_dir cleared5 = None.
Proof. split; [exact (torn_lost killed5 torn5)|vm_compute; reflexivity]. Qed.
Lemma b1_meta : b_meta b1 = Some (Full (mkMeta 2 1 0 0)).
Proof. vm_compute. reflexivity. Qed.
Definition plan7 := the_plan (resume 0 0 b1).
Lemma goes00 : (match resume 0 0 b1 with Some _ => true | None => false end) = true.
Proof. vm_compute. reflexivity. Qed.
Lemma zips5 : dget Nat.eqb (at_zips cleared5) 7 = None.
Proof. vm_compute. reflexivity. Qed.
Lemma unpack_zips {V St} t (s s1 : place V St) : unpack t s = Some s1 -> at_zips s1 = at_zips s.
Proof. unfold unpack. destruct (dget Nat.eqb (at_zips s) t) as [[|c]|]; try discriminate. intros E. now injection E as <-. Qed.
Lemma goes7 s1 : unpack 5 cleared5 = Some s1 -> at_dir s1 = Some (mkContent b1 [0]) -> resume_call true 0 0 7 s1 = Some ([ZipOpen 7; ZipClose 7] ++ map InDir (pl_prep plan7), plan7).
Proof.
  intros U D. assert (Z : dget Nat.eqb (at_zips s1) 7 = None) by (rewrite (unpack_zips _ _ _ U); exact zips5).
  exact (resume_goes_at s1 b1 [0] 7 plan7 0 0 D b1_there ltac:(lia) ltac:(lia) 0 0 eq_refl eq_refl (the_plan_ok (resume 0 0 b1) goes00) Z).
Qed.
Lemma results7 : option_map (map (map n_draws)) (results (Some 1) 1 plan7 (prepared plan7 b1) (fun _ => [1])) =
  Some [map (fun i => n_draws (snd (r_world (straight_run b_prob1 (ex_alg 2) 2 0 i)))) [0; 1]].
Proof. vm_compute. reflexivity. Qed.
Lemma killed5_other : at_dir killed5 <> Some (mkContent b1 [0]).
Proof. intros X. pose proof (torn_not_at _ _ _ X _ torn5) as Y. rewrite b1_meta in Y. discriminate Y. Qed.
Example C106_recovered : exists s1, unpack 5 cleared5 = Some s1 /\ at_dir s1 = Some (mkContent b1 [0]) /\
  resume_call true 0 0 7 s1 = Some ([ZipOpen 7; ZipClose 7] ++ map InDir (pl_prep plan7), plan7) /\
  option_map (map (map n_draws)) (results (Some 1) 1 plan7 (prepared plan7 b1) (fun _ => [1])) =
  Some [map (fun i => n_draws (snd (r_world (straight_run b_prob1 (ex_alg 2) 2 0 i)))) [0; 1]].
Proof.
  destruct (C106_state_recovered (Some 1) 1 1 1 5 pl0 (mkContent b1 [0]) ops5 3 cleared5 eq_refl ops5_ok (then_cleared killed5)) as [X|(s1 & U & D)].
  - exfalso. exact (killed5_other X).
  - exists s1. split; [exact U|]. split; [exact D|]. split; [exact (goes7 s1 U D)|exact results7].
Qed.
Example C106_initialize_case : at_dir (mkPlace (V := nat) (St := unit) None []) = None /\ 2 <= 3 <= 6.
Proof. split; [reflexivity|lia]. Qed.

Print Assumptions C106_backup_before_any_change.
Print Assumptions C106_resumed_is_backed_up.
Print Assumptions C106_backups_kept.
Print Assumptions C106_state_recovered.
Print Assumptions C106_results_recovered.
Print Assumptions C106_resume_refused.
Print Assumptions C106_benchmark_refused.
Print Assumptions C106_clear_then_benchmark.
Print Assumptions C106_killed_initialize_refuted.
Print Assumptions C106_initialized_resumable.
