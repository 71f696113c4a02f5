(** [solve] without recursive assembly does not panic, and single-pass solving
    keeps earlier groups satisfied. *)
From Coq Require Import List Arith NArith ZArith Lia Bool Permutation.
From Verif Require Import Num Outcome Lib ModelExpr ModelGraph ModelSystem ModelMatching ModelSolve
  ModelNumerical ModelApi Spec_Sketch Spec_Graph Spec_Scc Spec_Matching Spec_Groups Spec_Solver
  Proofs_Graph Proofs_System Proofs_Calls Proofs_Analyze Proofs_Matching Proofs_Scc Proofs_Groups
  Proofs_Solve Spec_Pass.
Import ListNotations.

Lemma index_of_some l x i : index_of l x = Some i -> nth_error l i = Some x.
Proof.
  revert i. induction l as [|y l IH]; simpl; intros i H; [discriminate|].
  destruct (Nat.eqb_spec x y) as [->|].
  - inversion H; auto.
  - destruct (index_of l x); [|discriminate]. inversion H; subst. simpl. auto.
Qed.
Lemma index_of_none l x : index_of l x = None <-> ~ In x l.
Proof.
  induction l as [|y l IH]; simpl; [tauto|].
  destruct (Nat.eqb_spec x y) as [->|].
  - split; [discriminate|tauto].
  - destruct (index_of l x); simpl; split; try discriminate; intuition congruence.
Qed.

Section Safe.
  Context {F : Type} {NF : Num F}.
  Implicit Types (s : system F) (sk : sketch F) (env : solver_env F).

  Definition ss_ok (ss : subsystem F) : Prop :=
    (forall id, In id (ss_expressions ss) -> id < length (ss_all_expressions ss)) /\
    (forall e v, In e (ss_all_expressions ss) -> In v (variable_indices e) ->
       v < length (ss_variables ss)).

  Lemma ss_gather ss x e : ss_ok ss -> length x = length (ss_free_variables ss) ->
    In e (ss_all_expressions ss) ->
    exists xs, gather (ss_map ss x) e = Done xs /\
      forall v i, In (Free v i) xs -> i < length (ss_free_variables ss).
  Proof.
    intros [O1 O2] L He. unfold gather.
    assert (Hv : forall v, In v (variable_indices e) -> exists y, ss_map ss x v = Done y /\
      forall w i, y = Free w i -> i < length (ss_free_variables ss)).
    { intros v Hv. unfold ss_map, index_set_map.
      destruct (index_of (ss_free_variables ss) v) as [i|] eqn:E.
      - apply index_of_some in E. apply nth_error_lt in E.
        destruct (oget_ok x i) as [y Hy]; [lia|]. rewrite Hy. simpl. eexists; split; eauto.
        intros w j Q. inversion Q; subst; auto.
      - destruct (oget_ok (ss_variables ss) v) as [y Hy]; [eauto|]. rewrite Hy. simpl.
        eexists; split; eauto. intros w j Q. discriminate. }
    destruct (omap_ok (ss_map ss x) (variable_indices e)) as [xs Hxs].
    { intros v H. destruct (Hv v H) as (y & Hy & _). eauto. }
    exists xs. split; auto. intros w i Hin. destruct (omap_in _ _ _ _ Hxs Hin) as (v & Hin' & Hv').
    destruct (Hv v Hin') as (y & Hy & Hi). rewrite Hy in Hv'. inversion Hv'; subst. eauto.
  Qed.

  Lemma rg_length (e : expr F) v : length (snd (compute_rg e v)) = length (variable_indices e).
  Proof.
    destruct e; try reflexivity. cbn. unfold lct_rg. destruct (_ =? _)%num; reflexivity.
  Qed.

  (** Which variables are free, and their places, do not depend on the values. *)
  Definition place (y : variable F) : option nat := match y with Free _ i => Some i | Fixed _ => None end.
  Lemma ss_places ss x x' e xs xs' : gather (ss_map ss x) e = Done xs -> gather (ss_map ss x') e = Done xs' ->
    map place xs = map place xs'.
  Proof.
    unfold gather. generalize (variable_indices e). intros l. revert xs xs'.
    induction l as [|v l IH]; intros xs xs' H H'; cbn in H, H'; [congruence|].
    apply obind_done in H. destruct H as (y & Hy & H). apply obind_done in H. destruct H as (ys & Hys & H).
    apply obind_done in H'. destruct H' as (y' & Hy' & H'). apply obind_done in H'. destruct H' as (ys' & Hys' & H').
    injection H as <-. injection H' as <-. cbn [map]. f_equal; [|eapply IH; eassumption].
    unfold ss_map, index_set_map in Hy, Hy'. destruct (index_of (ss_free_variables ss) v) as [i|];
      apply obind_done in Hy; destruct Hy as (? & _ & [= <-]); apply obind_done in Hy'; destruct Hy' as (? & _ & [= <-]); reflexivity.
  Qed.
  Lemma sparse_places row xs xs' g g' : map place xs = map place xs' -> length g = length g' ->
    map fst (sparse_row row xs g) = map fst (sparse_row row xs' g').
  Proof.
    unfold sparse_row. revert xs' g g'. induction xs as [|y xs IH]; intros [|y' xs'] g g' H L; try discriminate; [reflexivity|].
    cbn [map] in H. injection H as Hy H. destruct g as [|d g], g' as [|d' g']; try discriminate; [reflexivity|].
    cbn [combine flat_map]. rewrite !map_app. f_equal; [|apply IH; [exact H|now injection L]].
    destruct y, y'; cbn in Hy |- *; try discriminate; [injection Hy as <-|]; reflexivity.
  Qed.

  Lemma subsystem_ok ss : ss_ok ss -> problem_ok (subsystem_problem ss).
  Proof.
    intros O. destruct (O) as [O1 O2].
    assert (Hget : forall id, In id (ss_expressions ss) ->
      exists e, oget (ss_all_expressions ss) id = Done e /\ In e (ss_all_expressions ss)).
    { intros id Hid. destruct (oget_ok (ss_all_expressions ss) id) as [e He]; auto.
      exists e. split; auto. apply oget_done in He. eapply nth_error_In; eauto. }
    constructor; simpl.
    - intros x L. unfold ss_residuals.
      match goal with |- context [omap ?f ?l] => destruct (omap_ok f l) as [rs Hrs] end.
      { intros id Hid. destruct (Hget id Hid) as (e & He & Hin). rewrite He. simpl.
        unfold calculate_residual. destruct (ss_gather ss x e O L Hin) as (xs & Hxs & _).
        rewrite Hxs. simpl. eauto. }
      exists rs. split; auto. eapply omap_length; eauto.
    - intros x jac L Lj Hrow. unfold ss_dense.
      match goal with |- context [omap ?f ?l] => destruct (omap_ok f l) as [rows Hrows] end.
      { intros [id row] Hid. assert (Hi := in_combine_l _ _ _ _ Hid). assert (Hr := in_combine_r _ _ _ _ Hid).
        destruct (Hget id Hi) as (e & He & Hin). rewrite He. simpl.
        unfold calculate_residual_and_gradient. destruct (ss_gather ss x e O L Hin) as (xs & Hxs & Hf).
        rewrite Hxs. simpl. destruct (compute_rg e (buffer xs)) as [r g].
        destruct (assign_gradient_ok xs g row (length (ss_free_variables ss))) as (acc & Ha & _); auto.
        rewrite Ha. simpl. eauto. }
      rewrite Hrows. simpl. do 2 eexists; split; [reflexivity|].
      pose proof (omap_length _ _ _ Hrows) as Hl. rewrite combine_length in Hl.
      rewrite !map_length. split; [lia|]. split; [lia|].
      intros row Hr. apply in_map_iff in Hr. destruct Hr as ([r row'] & <- & Hr).
      destruct (omap_in _ _ _ _ Hrows Hr) as ([id row0] & Hid & Hf).
      assert (Hi := in_combine_l _ _ _ _ Hid). assert (Hr0 := in_combine_r _ _ _ _ Hid).
      destruct (Hget id Hi) as (e & He & Hin). rewrite He in Hf. simpl in Hf.
      unfold calculate_residual_and_gradient in Hf. destruct (ss_gather ss x e O L Hin) as (xs & Hxs & Hfr).
      rewrite Hxs in Hf. simpl in Hf. destruct (compute_rg e (buffer xs)) as [r1 g].
      destruct (assign_gradient_ok xs g row0 (length (ss_free_variables ss))) as (acc & Ha & Hla); auto.
      rewrite Ha in Hf. simpl in Hf. inversion Hf; subst. auto.
    - intros x L. unfold ss_sparse.
      match goal with |- context [omap ?f ?l] => destruct (omap_ok f l) as [rows Hrows] end.
      { intros [row id] Hid. assert (Hi := in_combine_r _ _ _ _ Hid).
        destruct (Hget id Hi) as (e & He & Hin). rewrite He. simpl.
        destruct (ss_gather ss x e O L Hin) as (xs & Hxs & Hf).
        rewrite Hxs. simpl. destruct (compute_rg e (buffer xs)) as [r g]. eauto. }
      rewrite Hrows. simpl. do 2 eexists; split; [reflexivity|].
      pose proof (omap_length _ _ _ Hrows) as Hl. rewrite combine_length, seq_length in Hl.
      rewrite map_length. split; [lia|].
      intros i j d Hin. apply in_concat in Hin. destruct Hin as (ts & Hts & Hin).
      apply in_map_iff in Hts. destruct Hts as ([r ts'] & E & Hts). simpl in E. subst ts'.
      destruct (omap_in _ _ _ _ Hrows Hts) as ([row id] & Hid & Hf).
      assert (Hi := in_combine_r _ _ _ _ Hid). assert (Hr := in_combine_l _ _ _ _ Hid).
      destruct (Hget id Hi) as (e & He & Hine). rewrite He in Hf. simpl in Hf.
      destruct (ss_gather ss x e O L Hine) as (xs & Hxs & Hfr). rewrite Hxs in Hf. simpl in Hf.
      destruct (compute_rg e (buffer xs)) as [r1 g]. inversion Hf; subst.
      unfold sparse_row in Hin. apply in_flat_map in Hin. destruct Hin as ([y dy] & Hy & Hin).
      destruct y as [w k|w]; simpl in Hin; [|contradiction]. destruct Hin as [Q|[]]. inversion Q; subst.
      apply in_seq in Hr. apply in_combine_l in Hy. apply Hfr in Hy. lia.
    - intros x x' rs ts rs' ts' _ _ H H'. unfold ss_sparse in H, H'.
      apply obind_done in H. destruct H as (rows & Hrows & [= _ <-]).
      apply obind_done in H'. destruct H' as (rows' & Hrows' & [= _ <-]). revert rows rows' Hrows Hrows'.
      generalize (combine (seq 0 (length (ss_expressions ss))) (ss_expressions ss)) as l.
      induction l as [|[row id] l IH]; intros rows rows' H H'; cbn [omap] in H, H'; [congruence|].
      apply obind_done in H. destruct H as ([r t] & Hr & H). apply obind_done in H. destruct H as (rest & Hrest & [= <-]).
      apply obind_done in H'. destruct H' as ([r' t'] & Hr' & H'). apply obind_done in H'. destruct H' as (rest' & Hrest' & [= <-]).
      cbn [map concat snd]. rewrite !map_app. f_equal; [|eapply IH; eassumption].
      apply obind_done in Hr. destruct Hr as (e & He & Hr). apply obind_done in Hr. destruct Hr as (xs & Hxs & Hr).
      apply obind_done in Hr'. destruct Hr' as (e' & He' & Hr'). rewrite He in He'. injection He' as <-.
      apply obind_done in Hr'. destruct Hr' as (xs' & Hxs' & Hr').
      pose proof (rg_length e (buffer xs)) as L1. pose proof (rg_length e (buffer xs')) as L2.
      destruct (compute_rg e (buffer xs)) as [r1 g1]. destruct (compute_rg e (buffer xs')) as [r2 g2].
      injection Hr as _ <-. injection Hr' as _ <-. cbn [snd] in L1, L2.
      apply sparse_places; [eapply ss_places; eassumption|congruence].
  Qed.

  (** What the loop of [solve] keeps *)
  Record run_ok s : Prop := {
    ro_eq : eq_ok s;
    ro_el : el_ok s;
    ro_vt : length (sys_variables_transformed s) = length (sys_variables s);
    ro_ex : forall e v, In e (sys_expressions_transformed s) -> In v (variable_indices e) ->
       v < length (sys_variables s);
    ro_exn : length (sys_expressions_transformed s) = length (eq_expressions (sys_eqgraph s));
    ro_room : (N.of_nat (length (eq_expressions (sys_eqgraph s))) < 2 ^ 32)%N;
    ro_comp : forall c, In c (components (sys_graph s)) ->
       (forall id, In id (c_elements c) -> id < length (sys_elements s)) /\
       (forall k, In k (c_constraints c) -> exists ec, nth_error (sys_constraints s) k = Some ec /\
          expressions_idx ec + tag_valency (ec_tag ec) <= length (sys_expressions_transformed s));
    ro_once : forall c, In c (components (sys_graph s)) -> NoDup (c_constraints c);
    ro_vcount : length (sys_variables s) <= 2 * length (sys_elements s);
    ro_ecount : length (sys_expressions_transformed s) <= 2 * length (sys_constraints s)
  }.

  (** At most [K] elements and constraints *)
  Definition limited (K : N) (s : system F) : Prop :=
    (N.of_nat (length (sys_elements s)) <= K)%N /\ (N.of_nat (length (sys_constraints s)) <= K)%N.
  Lemma rewritten_limited W K s s' : rewritten W s s' -> limited K s -> limited K s'.
  Proof. intros (vs & vt & -> & _) L. exact L. Qed.

  Lemma env_safe_any K env : env_safe env -> env_safe_upto K env.
  Proof. intros [H1 H2]. split; intros; [now apply H1|eauto]. Qed.

  Lemma nodup_below (l : list nat) n : NoDup l -> (forall x, In x l -> x < n) -> length l <= n.
  Proof.
    intros N H. rewrite <- (seq_length n 0). apply NoDup_incl_length; [exact N|]. intros x Hx. apply in_seq.
    specialize (H x Hx). lia.
  Qed.

  Lemma concat_nodup {A} (ls : list (list A)) l : NoDup (concat ls) -> In l ls -> NoDup l.
  Proof.
    induction ls as [|x ls IH]; cbn [concat]; intros N H; [contradiction|]. destruct H as [->|H].
    - clear - N. induction l as [|a l IH]; [constructor|]. cbn in N. inversion N; subst. constructor; [|auto].
      intros Hin. apply H1. apply in_or_app. auto.
    - apply IH; [|exact H]. clear - N. induction x as [|a x IH]; [exact N|]. inversion N; auto.
  Qed.
  Lemma sparse_row_length row xs (g : list F) : length (sparse_row row xs g) <= length xs.
  Proof.
    unfold sparse_row. revert g. induction xs as [|x xs IH]; intros [|d g]; cbn [combine flat_map length]; try lia.
    rewrite app_length. specialize (IH g). destruct x; cbn [length]; lia.
  Qed.
  Lemma subsystem_sized K ss : (N.of_nat (length (ss_free_variables ss)) <= 2 * K)%N ->
    (N.of_nat (length (ss_expressions ss)) <= 2 * K)%N -> sized K (subsystem_problem ss).
  Proof.
    intros H1 H2. constructor; [exact H1|exact H2|]. intros x rs ts _ H. cbn [subsystem_problem num_residuals calculate_residuals_and_sparse_jacobian] in *.
    unfold ss_sparse in H. apply obind_done in H. destruct H as (rows & Hrows & [= _ <-]).
    pose proof (omap_length _ _ _ Hrows) as Hl. rewrite combine_length, seq_length, Nat.min_id in Hl. rewrite <- Hl.
    assert (B : forall r t, In (r, t) rows -> length t <= 8).
    { intros r t Hin. destruct (omap_in _ _ _ _ Hrows Hin) as ([row id] & _ & Hf).
      apply obind_done in Hf. destruct Hf as (e & _ & Hf). apply obind_done in Hf. destruct Hf as (xs & Hxs & Hf).
      destruct (compute_rg e (buffer xs)) as [r1 g]. injection Hf as _ <-.
      eapply Nat.le_trans; [apply sparse_row_length|]. unfold gather in Hxs. apply omap_length in Hxs. rewrite Hxs.
      destruct e; cbn; lia. }
    clear - B. induction rows as [|[r t] rows IH]; cbn [map concat length snd]; [lia|]. rewrite app_length.
    pose proof (B r t (or_introl eq_refl)). specialize (IH (fun r t H => B r t (or_intror H))). lia.
  Qed.
  Lemma component_expressions_length s cs es : component_expressions s cs = Done es -> length es <= 2 * length cs.
  Proof.
    unfold component_expressions. intros H. apply obind_done in H. destruct H as (ess & Hess & [= <-]).
    rewrite <- (omap_length _ _ _ Hess).
    assert (B : forall l, In l ess -> length l <= 2).
    { intros l Hin. destruct (omap_in _ _ _ _ Hess Hin) as (k & _ & Hf). apply obind_done in Hf.
      destruct Hf as (ec & _ & [= <-]). rewrite map_length, seq_length. destruct (ec_tag ec); cbn; lia. }
    clear - B. induction ess as [|l ess IH]; cbn [concat length]; [lia|]. rewrite app_length.
    pose proof (B l (or_introl eq_refl)). specialize (IH (fun l H => B l (or_intror H))). lia.
  Qed.
  Lemma rewritten_run_ok W s s' : rewritten W s s' -> run_ok s -> run_ok s'.
  Proof.
    intros R O. assert (R' := R). destruct R as (vs & vt & -> & L & L' & _). constructor; simpl; try apply O.
    - eapply rewritten_eq_ok; eauto. apply O.
    - eapply rewritten_el_ok; eauto. apply O.
    - rewrite L, L'. apply O.
    - rewrite L. apply O.
    - rewrite L. apply O.
  Qed.

  Lemma get_values s free : run_ok s -> (forall v, In v free -> v < length (sys_variables s)) ->
    exists values, omap (oget (sys_variables_transformed s)) free = Done values /\
      length values = length free.
  Proof.
    intros O H. destruct (omap_ok (oget (sys_variables_transformed s)) free) as [vs Hvs].
    { intros v Hv. destruct (oget_ok (sys_variables_transformed s) v) as [x Hx]; eauto.
      rewrite (ro_vt _ O). auto. }
    exists vs. split; auto. eapply omap_length; eauto.
  Qed.

  Lemma none_sized K s free c es : run_ok s -> limited K s -> NoDup free ->
    (forall v, In v free -> v < length (sys_variables s)) -> In c (components (sys_graph s)) ->
    component_expressions s (c_constraints c) = Done es ->
    sized K (subsystem_problem (subsystem_new (sys_variables_transformed s) (sys_expressions_transformed s) free es)).
  Proof.
    intros O [L1 L2] N Hr Hc Hes. apply subsystem_sized; cbn [subsystem_new ss_free_variables ss_expressions].
    - rewrite index_set_nodup by exact N. pose proof (nodup_below _ _ N Hr). pose proof (ro_vcount _ O). lia.
    - pose proof (component_expressions_length _ _ _ Hes).
      assert (Hb : length (c_constraints c) <= length (sys_constraints s)); [|lia].
      apply nodup_below; [now apply (ro_once _ O)|]. intros k Hk. destruct (ro_comp _ O c Hc) as [_ H1].
      destruct (H1 k Hk) as (ec & E & _). eapply nth_error_lt; eauto.
  Qed.
  Lemma group_sized K s g : run_ok s -> limited K s ->
    NoDup (group_free_variables g) -> NoDup (group_expressions g) ->
    (forall v, In v (group_free_variables g) -> v < length (sys_variables s)) ->
    (forall e, In e (group_expressions g) -> e < length (sys_expressions_transformed s)) ->
    sized K (subsystem_problem (subsystem_new (sys_variables_transformed s) (sys_expressions_transformed s)
      (group_free_variables g) (group_expressions g))).
  Proof.
    intros O [L1 L2] N Ne Hr He. apply subsystem_sized; cbn [subsystem_new ss_free_variables ss_expressions].
    - rewrite index_set_nodup by exact N. pose proof (nodup_below _ _ N Hr). pose proof (ro_vcount _ O). lia.
    - pose proof (nodup_below _ _ Ne He). pose proof (ro_ecount _ O). lia.
  Qed.

  Lemma solve_none_nopanic K env opt scale free c s : env_safe_upto K env -> run_ok s -> limited K s -> NoDup free ->
    (forall v, In v free -> v < length (sys_variables s)) ->
    In c (components (sys_graph s)) ->
    solve_none env opt scale free (c_constraints c) s <> Panic.
  Proof.
    intros ES O HL N Hr Hc. unfold solve_none.
    destruct (get_values s free O Hr) as (values & Hv & Lv). rewrite Hv. cbn [obind].
    destruct (ro_comp _ O c Hc) as [_ Hk].
    assert (Hes : exists es, component_expressions s (c_constraints c) = Done es /\
       forall j, In j es -> j < length (sys_expressions_transformed s)).
    { unfold component_expressions. match goal with |- context [omap ?f ?l] => destruct (omap_ok f l) as [ess Hess] end.
      { intros k Hin. destruct (Hk k Hin) as (ec & Hec & _). unfold oget. rewrite Hec. simpl. eauto. }
      rewrite Hess. simpl. eexists; split; [reflexivity|]. intros j Hj. apply in_concat in Hj.
      destruct Hj as (l & Hl & Hj). destruct (omap_in _ _ _ _ Hess Hl) as (k & Hin & Hf).
      destruct (Hk k Hin) as (ec & Hec & Hle). unfold oget in Hf. rewrite Hec in Hf. simpl in Hf.
      inversion Hf; subst. apply in_map_iff in Hj. destruct Hj as (o & <- & Ho). apply in_seq in Ho. lia. }
    destruct Hes as (es & Hes & Hin). rewrite Hes. cbn [obind].
    set (ss := subsystem_new (sys_variables_transformed s) (sys_expressions_transformed s) free es).
    assert (OK : problem_ok (subsystem_problem ss)).
    { apply subsystem_ok. split; simpl; auto. rewrite (ro_vt _ O). apply (ro_ex _ O). }
    assert (Efree : ss_free_variables ss = free) by (simpl; now apply index_set_nodup).
    assert (Ln : length values = num_variables (subsystem_problem ss)) by (change (num_variables (subsystem_problem ss)) with (length (ss_free_variables ss)); rewrite Efree; auto).
    assert (Sz : sized K (subsystem_problem ss)) by (apply (none_sized K s free c es); auto).
    apply obind_nopanic; [now apply (eu_panic _ _ ES)|]. intros values' Hopt.
    apply (eu_length _ _ ES) in Hopt; auto. rewrite Efree. unfold write_back.
    destruct (write_ok (fun x => nmul scale x) values' free 0 (sys_variables s)) as [vs Hvs]; auto; [simpl; lia|].
    rewrite Hvs. simpl. discriminate.
  Qed.

  Lemma solve_group_nopanic K env opt scale s g : env_safe_upto K env -> run_ok s -> limited K s ->
    NoDup (group_free_variables g) -> NoDup (group_expressions g) ->
    (forall v, In v (group_free_variables g) -> v < length (sys_variables s)) ->
    (forall e, In e (group_expressions g) -> e < length (sys_expressions_transformed s)) ->
    solve_group env opt scale s g <> Panic.
  Proof.
    intros ES O HL N Ne Hr He. unfold solve_group.
    destruct (get_values s _ O Hr) as (values & Hv & Lv). rewrite Hv. cbn [obind].
    set (ss := subsystem_new (sys_variables_transformed s) (sys_expressions_transformed s)
                 (group_free_variables g) (group_expressions g)).
    assert (OK : problem_ok (subsystem_problem ss)).
    { apply subsystem_ok. split; simpl; auto. rewrite (ro_vt _ O). apply (ro_ex _ O). }
    assert (Efree : ss_free_variables ss = group_free_variables g) by (simpl; now apply index_set_nodup).
    assert (Ln : length values = num_variables (subsystem_problem ss)) by (change (num_variables (subsystem_problem ss)) with (length (ss_free_variables ss)); rewrite Efree; auto).
    assert (Sz : sized K (subsystem_problem ss)) by (now apply (group_sized K s g)).
    apply obind_nopanic; [now apply (eu_panic _ _ ES)|]. intros values' Hopt.
    apply (eu_length _ _ ES) in Hopt; auto. rewrite Efree. unfold write_back, write_back_transformed.
    destruct (write_ok (fun x => x) values' (group_free_variables g) 0 (sys_variables_transformed s)) as [vt Hvt];
      [rewrite (ro_vt _ O); auto|simpl; lia|]. rewrite Hvt. cbn [obind].
    destruct (write_ok (fun x => nmul scale x) values' (group_free_variables g) 0 (sys_variables s)) as [vs Hvs];
      auto; [simpl; lia|]. rewrite Hvs. simpl. discriminate.
  Qed.

  Lemma group_in_range s free m gs g : run_ok s ->
    group_order (eq_expressions (sys_eqgraph s)) free (a_to_b m) gs ->
    (forall v, In v free -> v < length (sys_variables s)) ->
    valid (masked (sys_eqgraph s) free) m -> In g gs ->
    NoDup (group_free_variables g) /\
    (forall v, In v (group_free_variables g) -> In v free) /\
    (forall e, In e (group_expressions g) -> e < length (sys_expressions_transformed s)) /\
    NoDup (group_expressions g).
  Proof.
    intros O GO Hr V Hg. split; [apply (go_vonce _ _ _ _ GO _ Hg)|]. split; [|split].
    - intros v Hv. apply (go_vars _ _ _ _ GO _ _ Hg) in Hv. destruct Hv as (e & _ & _ & Hv & _). auto.
    - intros e He. rewrite (ro_exn _ O). destruct (ro_eq _ O) as [E1 E2].
      assert (Hm : matched (a_to_b m) e) by (apply (go_all _ _ _ _ GO); eauto).
      destruct Hm as [v Hm]. apply in_aget in Hm; [|apply V]. apply (v_edge _ _ V) in Hm.
      destruct Hm as [Hv (bs & Hbs & Hin)]. simpl in Hbs. apply (E2 _ _ Hbs) in Hin.
      destruct Hin as (vs & Hvs & _). eapply nth_error_lt; eauto.
    - eapply concat_nodup; [apply (go_once _ _ _ _ GO)|]. now apply in_map.
  Qed.

  Lemma single_pass_nopanic K env opt scale free s : env_ok env -> env_safe_upto K env -> run_ok s -> limited K s ->
    NoDup free -> (forall v, In v free -> v < length (sys_variables s)) ->
    solve_single_pass env opt scale free s <> Panic.
  Proof.
    intros EO ES O HL N Hr. unfold solve_single_pass. destruct (ro_eq _ O) as [E1 E2].
    destruct (find_groups_ok (sys_eqgraph s) free (env_order env)) as (m & gs & Q1 & Q2 & Q3 & Q4 & Q5); auto.
    - intros v Hv. rewrite E1. auto.
    - left. apply (ro_room _ O).
    - apply EO.
    - rewrite Q4. cbn [obind].
      apply (ofold_nopanic (fun s1 => rewritten (fun _ => True) s s1)); [|apply rewritten_refl].
      intros g s1 Hg R. destruct (group_in_range s free m gs g O Q5 Hr Q2 Hg) as (G1 & G2 & G3 & G4).
      assert (O1 : run_ok s1) by (eapply rewritten_run_ok; eauto).
      assert (Lv : length (sys_variables s1) = length (sys_variables s)).
      { destruct R as (vs & vt & -> & L & _). auto. }
      assert (Et : sys_expressions_transformed s1 = sys_expressions_transformed s).
      { destruct R as (vs & vt & -> & _). auto. }
      split.
      + apply (solve_group_nopanic K); auto; [eapply rewritten_limited; eauto|rewrite Lv; auto|rewrite Et; auto].
      + intros s2 H2. apply solve_group_sound in H2; auto. eapply rewritten_trans; eauto.
        eapply rewritten_weaken; [|exact H2]. auto.
  Qed.

  Lemma solve_component_nopanic K env opts scale rng s c : env_ok env -> env_safe_upto K env -> run_ok s -> limited K s ->
    o_decomposer opts <> RecursiveAssembly -> In c (components (sys_graph s)) ->
    solve_component env opts scale (rng, s) c <> Panic.
  Proof.
    intros EO ES O HL Hd Hc. unfold solve_component.
    destruct (c_elements c) as [|e0 es0] eqn:Ec; [discriminate|]. rewrite <- Ec.
    destruct (ro_comp _ O c Hc) as [He _].
    destruct (component_free_ok s (c_elements c) He) as [free Hf]. rewrite Hf. cbn [obind].
    apply component_free_spec in Hf. destruct Hf as [N Hf].
    assert (Hr : forall v, In v free -> v < length (sys_variables s)).
    { intros v Hv. apply Hf in Hv. destruct Hv as (id & e & _ & Hee & Hv & _). eapply (ro_el _ O); eauto. }
    assert (Hp : exists rng1 vt, (if o_perturb opts then perturb_variables free rng (sys_variables_transformed s)
              else Done (rng, sys_variables_transformed s)) = Done (rng1, vt) /\
              length vt = length (sys_variables_transformed s)).
    { destruct (o_perturb opts); [|eauto].
      destruct (perturb_ok free rng (sys_variables_transformed s)) as [[r1 vt] Hp].
      { intros v Hv. rewrite (ro_vt _ O). auto. }
      exists r1, vt. split; auto. now apply perturb_spec in Hp. }
    destruct Hp as (rng1 & vt & Hp & Lvt). rewrite Hp. cbn [obind].
    set (s1 := with_values (sys_variables s) vt s).
    assert (O1 : run_ok s1).
    { eapply (rewritten_run_ok (fun _ => True)); eauto. exists (sys_variables s), vt. auto. }
    apply obind_nopanic; [|intros; discriminate].
    destruct (o_decomposer opts) eqn:Ed; [| |congruence].
    - now apply (solve_none_nopanic K).
    - now apply (single_pass_nopanic K).
  Qed.

  Lemma transform_indices (r : F) e : variable_indices (transform r e) = variable_indices e.
  Proof. destruct e; reflexivity. Qed.

  Lemma variables_count s sk : models s sk -> length (sys_variables s) <= 2 * length (sys_elements s).
  Proof.
    intros M.
    assert (L : length (map Some (seq 0 (length (sys_variables s)))) <=
                length (map (addr (sys_elements s)) (list_prod (seq 0 (length (sys_elements s))) [0; 1]))).
    { apply NoDup_incl_length.
      - apply FinFun.Injective_map_NoDup; [intros a b E; congruence|apply seq_NoDup].
      - intros o Ho. apply in_map_iff in Ho. destruct Ho as (v & <- & Hv). apply in_seq in Hv.
        destruct (m_surj _ _ M v) as [[i k] Hc]; [lia|]. rewrite <- Hc. apply in_map.
        unfold addr in Hc. simpl in Hc. destruct (nth_error (sys_elements s) i) as [e|] eqn:E; [|discriminate].
        apply nth_error_lt in E. apply in_prod; [apply in_seq; lia|].
        destruct e, k as [|[|k]]; try discriminate; simpl; auto. }
    rewrite !map_length, seq_length in L. pose proof (prod_length (seq 0 (length (sys_elements s))) [0; 1]) as P.
    unfold coord in *. rewrite P, seq_length in L. simpl in L. lia.
  Qed.
  Lemma expressions_count s sk : models s sk -> length (sys_expressions s) <= 2 * length (sys_constraints s).
  Proof.
    intros M.
    assert (L : length (seq 0 (length (sys_expressions s))) <=
                length (flat_map (fun c => [expressions_idx c; S (expressions_idx c)]) (sys_constraints s))).
    { apply NoDup_incl_length; [apply seq_NoDup|]. intros j Hj. apply in_seq in Hj.
      destruct (nth_error_ex (sys_expressions s) j) as [e He]; [lia|].
      destruct (m_expr _ _ M _ _ He) as (i & r & idx & es & k & _ & H2 & H3 & H4 & ->).
      apply in_flat_map. eexists. split; [eapply nth_error_In; eauto|]. simpl.
      assert (k < 2).
      { apply nth_error_lt in H4. assert (length es <= 2); [|lia].
        destruct r; simpl in H3;
        repeat match type of H3 with context [match ?m with _ => _ end] => destruct m as [[? ?]|] || destruct m; try discriminate end;
        inversion H3; simpl; auto. }
      lia. }
    rewrite seq_length in L. rewrite flat_map_concat_map in L.
    assert (Q : forall l : list encoded_constraint,
      length (concat (map (fun c => [expressions_idx c; S (expressions_idx c)]) l)) = 2 * length l).
    { intros q; induction q; simpl; lia. }
    rewrite Q in L. auto.
  Qed.

  Lemma models_run_ok s sk vt r : models s sk -> length vt = length (sys_variables s) ->
    (N.of_nat (length (sys_expressions s)) < 2 ^ 32)%N ->
    run_ok (with_transformed vt (map (transform r) (sys_expressions s)) s).
  Proof.
    intros M L HR. constructor; simpl; auto.
    - apply (models_eq_ok _ _ M).
    - apply (models_el_ok _ _ M).
    - intros e v He Hv. apply in_map_iff in He. destruct He as (e' & <- & He).
      rewrite transform_indices in Hv. apply In_nth_error in He. destruct He as [j Hj].
      destruct (m_expr _ _ M _ _ Hj) as (i & rr & idx & es & k & _ & _ & Hc & Hk & _).
      eapply compile_vars; eauto. eapply nth_error_In; eauto.
    - rewrite map_length, (m_eqe _ _ M), map_length. auto.
    - rewrite (m_eqe _ _ M), map_length. auto.
    - intros c Hc. pose proof (m_graph _ _ M) as G. pose proof (wg_part _ G) as P.
      apply In_nth_error in Hc. destruct Hc as [ci Hci]. split.
      + intros id Hid. assert (id < length (element_component (sys_graph s))) by (eapply p_range; eauto).
        rewrite (wg_len _ G), (m_glen _ _ M) in H. auto.
      + intros k Hk. assert (Hlt : k < length (g_constraints (sys_graph s))).
        { apply (p_ccov _ _ _ _ P). eauto. }
        rewrite (m_gclen _ _ M) in Hlt. destruct (nth_error_ex _ _ Hlt) as [rr Hr].
        destruct (m_rel _ _ M _ _ Hr) as (idx & es & Hec & Hes & Hall).
        exists (EncodedConstraint (relation_tag rr) idx). split; auto. simpl.
        rewrite map_length, <- (compile_length _ _ _ Hes).
        destruct (length es) as [|n] eqn:El.
        { rewrite (compile_length _ _ _ Hes) in El. destruct rr; discriminate. }
        destruct (nth_error_ex es n) as [e He]; [lia|]. apply Hall in He. destruct He as [He _].
        apply nth_error_lt in He. lia.
    - intros c Hc. apply In_nth_error in Hc. destruct Hc as [ci Hci]. apply ssorted_nodup.
      apply (p_sorted _ _ _ _ (wg_part _ (m_graph _ _ M)) _ _ Hci).
    - apply (variables_count _ _ M).
    - rewrite map_length. apply (expressions_count _ _ M).
  Qed.

  Theorem solve_nopanic K env opts s sk : env_ok env -> env_safe_upto K env -> models s sk -> limited K s ->
    (N.of_nat (length (sys_expressions s)) < 2 ^ 32)%N ->
    o_decomposer opts <> RecursiveAssembly -> solve env opts s <> Panic.
  Proof.
    intros EO ES M HL HR Hd. unfold solve. apply obind_nopanic; [|intros [? ?]; discriminate].
    unfold scale_system.
    match goal with |- context [with_transformed ?a ?b s] => set (s0 := with_transformed a b s) end.
    assert (O0 : run_ok s0). { eapply models_run_ok; eauto. apply map_length. }
    apply (ofold_nopanic (fun st => rewritten (fun _ => True) s0 (snd st))); [|apply rewritten_refl].
    intros c [rng s1] Hc R. simpl in R. assert (O1 : run_ok s1) by (eapply rewritten_run_ok; eauto).
    assert (Hc1 : In c (components (sys_graph s1))) by (destruct R as (vs & vt & -> & _); auto).
    split; [apply (solve_component_nopanic K); auto; eapply rewritten_limited; eauto|].
    intros [rng2 s2] H2. simpl. eapply rewritten_trans; eauto. eapply rewritten_weaken; [|
      eapply solve_component_sound; eauto; apply O1]. auto.
  Qed.

  (** ** Single pass *)
  Lemma index_of_nodup l i x : NoDup l -> nth_error l i = Some x -> index_of l x = Some i.
  Proof.
    intros N H. destruct (index_of l x) as [j|] eqn:E.
    - apply index_of_some in E. f_equal. eapply nth_error_unique; eauto.
    - apply index_of_none in E. exfalso. apply E. eapply nth_error_In; eauto.
  Qed.

  Lemma residual_map (vm vm' : variable_map F) (x : expr F) :
    (forall v, In v (variable_indices x) ->
       exists y y', vm v = Done y /\ vm' v = Done y' /\ variable_value y = variable_value y') ->
    calculate_residual vm x = calculate_residual vm' x.
  Proof.
    intros H. unfold calculate_residual, gather.
    assert (G : exists xs xs', omap vm (variable_indices x) = Done xs /\
       omap vm' (variable_indices x) = Done xs' /\ map (@variable_value F) xs = map (@variable_value F) xs').
    { induction (variable_indices x) as [|v l IH]; simpl; [do 2 eexists; eauto|].
      destruct (H v) as (y & y' & E1 & E2 & E3); [simpl; auto|].
      destruct IH as (xs & xs' & I1 & I2 & I3); [intros; apply H; simpl; auto|].
      rewrite E1, E2, I1, I2. simpl. do 2 eexists; split; [reflexivity|]. split; [reflexivity|].
      simpl. congruence. }
    destruct G as (xs & xs' & -> & -> & E). simpl. unfold buffer. now rewrite E.
  Qed.

  (** The variables of expression [e] *)
  Lemma residual_frame s s' e : run_ok s ->
    sys_expressions_transformed s' = sys_expressions_transformed s ->
    length (sys_variables_transformed s') = length (sys_variables_transformed s) ->
    (forall x v, nth_error (sys_expressions_transformed s) e = Some x -> In v (variable_indices x) ->
       nth_error (sys_variables_transformed s') v = nth_error (sys_variables_transformed s) v) ->
    residual_in s' e = residual_in s e.
  Proof.
    intros O E L H. unfold residual_in. rewrite E.
    destruct (oget (sys_expressions_transformed s) e) as [x| |] eqn:Ex; auto. simpl.
    apply oget_done in Ex. apply residual_map. intros v Hv.
    assert (Hlt : v < length (sys_variables_transformed s)).
    { rewrite (ro_vt _ O). eapply (ro_ex _ O); eauto. eapply nth_error_In; eauto. }
    unfold identity_map, oget. rewrite (H x v Ex Hv).
    destruct (nth_error_ex _ _ Hlt) as [y Hy]. rewrite Hy. simpl. do 2 eexists; eauto.
  Qed.

  (** The residuals the optimizer sees at the point it returns are the
      residuals of the system after the group has been written back. *)
  Lemma group_residuals env opt scale s g s' : run_ok s -> NoDup (group_free_variables g) ->
    solve_group env opt scale s g = Done s' ->
    exists x x', 
      let p := subsystem_problem (subsystem_new (sys_variables_transformed s)
         (sys_expressions_transformed s) (group_free_variables g) (group_expressions g)) in
      env_optimize env opt p x = Done x' /\
      calculate_residuals p x' = omap (residual_in s') (group_expressions g).
  Proof.
    intros O N H. unfold solve_group in H.
    apply obind_done in H. destruct H as (values & Hv & H).
    apply obind_done in H. destruct H as (values' & Ho & H).
    apply obind_done in H. destruct H as (vt & Ht & H).
    apply obind_done in H. destruct H as (vs & Hw & H). inversion H; subst.
    exists values, values'. split; auto. simpl. unfold ss_residuals. simpl.
    apply omap_ext. intros e He. unfold residual_in. simpl.
    destruct (oget (sys_expressions_transformed s) e) as [x| |] eqn:Ex; auto. simpl.
    apply oget_done in Ex. apply residual_map. intros v Hvx.
    assert (Hlt : v < length (sys_variables_transformed s)).
    { rewrite (ro_vt _ O). eapply (ro_ex _ O); eauto. eapply nth_error_In; eauto. }
    unfold ss_map, index_set_map, identity_map. simpl.
    unfold write_back_transformed in Ht. simpl in Ht. rewrite index_set_nodup in * by auto.
    apply (write_spec (fun x => x)) in Ht. destruct Ht as (L & U & W).
    destruct (index_of (group_free_variables g) v) as [i|] eqn:Ei.
    - apply index_of_some in Ei. destruct (W N i v Ei) as (y & Hy & Hv'). simpl in Hy.
      unfold oget. rewrite Hy, Hv'. simpl. do 2 eexists; eauto.
    - apply index_of_none in Ei. unfold oget. rewrite U by auto.
      destruct (nth_error_ex _ _ Hlt) as [y ->]. simpl. do 2 eexists; eauto.
  Qed.

  Lemma solve_group_frame env opt scale s g s' : NoDup (group_free_variables g) ->
    solve_group env opt scale s g = Done s' ->
    forall v, ~ In v (group_free_variables g) ->
      nth_error (sys_variables_transformed s') v = nth_error (sys_variables_transformed s) v /\
      nth_error (sys_variables s') v = nth_error (sys_variables s) v.
  Proof.
    intros N H. unfold solve_group in H.
    apply obind_done in H. destruct H as (values & Hv & H).
    apply obind_done in H. destruct H as (values' & Ho & H).
    apply obind_done in H. destruct H as (vt & Ht & H).
    apply obind_done in H. destruct H as (vs & Hw & H). inversion H; subst. simpl.
    unfold write_back in Hw. unfold write_back_transformed in Ht. simpl in Hw, Ht.
    rewrite index_set_nodup in Hw, Ht by auto.
    apply (write_spec (fun x => nmul scale x)) in Hw. destruct Hw as (L & U & _).
    apply (write_spec (fun x => x)) in Ht. destruct Ht as (L' & U' & _). auto.
  Qed.

  (** Expression numbers of the equation graph are those of the system *)
  Definition graph_matches s : Prop :=
    eq_expressions (sys_eqgraph s) = map variable_indices (sys_expressions_transformed s).

  Section Pass.
    Variable env : solver_env F.
    Variable opt : optimizer.
    Variable scale : F.
    Variable free : list nat.
    Variable m : matching.
    Variable gs : list group.
    Variable s0 : system F.
    Hypothesis O0 : run_ok s0.
    Hypothesis GM : graph_matches s0.
    Hypothesis Hr : forall v, In v free -> v < length (sys_variables s0).
    Hypothesis V : valid (masked (sys_eqgraph s0) free) m.
    Hypothesis GO : group_order (eq_expressions (sys_eqgraph s0)) free (a_to_b m) gs.

    Lemma later_group_keeps i j gi gj e s1 s2 : nth_error gs i = Some gi -> nth_error gs j = Some gj ->
      i < j -> In e (group_expressions gi) -> rewritten (fun _ => True) s0 s1 ->
      solve_group env opt scale s1 gj = Done s2 -> residual_in s2 e = residual_in s1 e.
    Proof.
      intros Hi Hj Hij He R H. assert (Hgj := nth_error_In _ _ Hj). assert (Hgi := nth_error_In _ _ Hi).
      assert (N := go_vonce _ _ _ _ GO _ Hgj).
      pose proof (solve_group_sound _ _ _ _ _ _ N H) as R2.
      apply residual_frame.
      - eapply rewritten_run_ok; eauto.
      - destruct R2 as (vs & vt & -> & _). auto.
      - destruct R2 as (vs & vt & -> & _ & L & _). auto.
      - intros x v Hx Hv. apply (solve_group_frame _ _ _ _ _ _ N H). intros Hin.
        apply (go_vars _ _ _ _ GO _ _ Hgj) in Hin. destruct Hin as (f & Hf & Hd).
        assert (j <= i); [|lia].
        apply (go_order _ _ _ _ GO j i gj gi f e); auto.
        split; [apply (go_all _ _ _ _ GO); eauto|]. split; [apply (go_all _ _ _ _ GO); eauto|].
        exists v. split; auto. exists (variable_indices x). split; auto.
        assert (Ex : nth_error (sys_expressions_transformed s0) e = Some x).
        { destruct R as (vs & vt & -> & _). auto. }
        rewrite GM, nth_error_map, Ex. auto.
    Qed.

    Lemma pass_keeps : forall post pre s1 s2, gs = pre ++ post ->
      rewritten (fun _ => True) s0 s1 ->
      ofold (solve_group env opt scale) post s1 = Done s2 ->
      forall i gi e, i < length pre -> nth_error gs i = Some gi -> In e (group_expressions gi) ->
      residual_in s2 e = residual_in s1 e.
    Proof.
      induction post as [|g post IH]; intros pre s1 s2 E R H i gi e Hi Hgi He.
      - simpl in H. inversion H; auto.
      - simpl in H. apply obind_done in H. destruct H as (s3 & H3 & H).
        assert (Hg : nth_error gs (length pre) = Some g).
        { rewrite E, nth_error_app2, Nat.sub_diag by auto. auto. }
        assert (N := go_vonce _ _ _ _ GO _ (nth_error_In _ _ Hg)).
        rewrite <- (later_group_keeps i (length pre) gi g e s1 s3); auto.
        eapply (IH (pre ++ [g])) with (i := i) (gi := gi); eauto.
        + rewrite <- app_assoc. auto.
        + eapply rewritten_trans; [exact R|]. eapply rewritten_weaken; [|eapply solve_group_sound; eauto]. auto.
        + rewrite app_length. simpl. lia.
    Qed.

    Lemma prefix_rewritten : forall l s1 s2, incl l gs -> 
      ofold (solve_group env opt scale) l s1 = Done s2 -> rewritten (fun _ => True) s1 s2.
    Proof.
      induction l as [|g l IH]; simpl; intros s1 s2 Hl H.
      - inversion H; subst. apply rewritten_refl.
      - apply obind_done in H. destruct H as (s3 & H3 & H). eapply rewritten_trans.
        + eapply rewritten_weaken; [|eapply solve_group_sound; eauto]; auto.
          apply (go_vonce _ _ _ _ GO). apply Hl; simpl; auto.
        + apply IH; auto. intros x Hx. apply Hl; simpl; auto.
    Qed.

    Lemma single_pass_keeps s' (Z : F -> Prop) :
      ofold (solve_group env opt scale) gs s0 = Done s' ->
      (forall pre g post s1, gs = pre ++ g :: post ->
         ofold (solve_group env opt scale) (pre ++ [g]) s0 = Done s1 ->
         forall e, In e (group_expressions g) -> exists r, residual_in s1 e = Done r /\ Z r) ->
      forall e, matched (a_to_b m) e -> exists r, residual_in s' e = Done r /\ Z r.
    Proof.
      intros H HZ e Hm. apply (go_all _ _ _ _ GO) in Hm. destruct Hm as (g & Hg & He).
      apply in_split in Hg. destruct Hg as (pre & post & E).
      assert (E' : gs = (pre ++ [g]) ++ post) by (rewrite <- app_assoc; auto).
      rewrite E', ofold_app in H. apply obind_done in H. destruct H as (s1 & H1 & H2).
      destruct (HZ pre g post s1 E H1 e He) as (r & Hres & Hz). exists r. split; auto.
      rewrite <- Hres. eapply (pass_keeps post (pre ++ [g])) with (i := length pre) (gi := g); eauto.
      - eapply prefix_rewritten; eauto. rewrite E'. intros x Hx. apply in_app_iff; auto.
      - rewrite app_length. simpl. lia.
      - rewrite E, nth_error_app2, Nat.sub_diag by auto. auto.
    Qed.

    Lemma written_once i j gi gj v : nth_error gs i = Some gi -> nth_error gs j = Some gj ->
      In v (group_free_variables gi) -> In v (group_free_variables gj) -> i = j.
    Proof.
      intros Hi Hj Hvi Hvj.
      apply (go_vars _ _ _ _ GO _ _ (nth_error_In _ _ Hi)) in Hvi. destruct Hvi as (e & He & De).
      apply (go_vars _ _ _ _ GO _ _ (nth_error_In _ _ Hj)) in Hvj. destruct Hvj as (f & Hf & Df).
      assert (Me : matched (a_to_b m) e) by (apply (go_all _ _ _ _ GO); exists gi; split; auto; eapply nth_error_In; eauto).
      assert (Mf : matched (a_to_b m) f) by (apply (go_all _ _ _ _ GO); exists gj; split; auto; eapply nth_error_In; eauto).
      apply Nat.le_antisymm.
      - apply (go_order _ _ _ _ GO i j gi gj e f); auto. split; auto. split; auto. exists v. split; auto. apply Df.
      - apply (go_order _ _ _ _ GO j i gj gi f e); auto. split; auto. split; auto. exists v. split; auto. apply De.
    Qed.
  End Pass.
End Safe.
