(** Single-pass solving of a whole sketch in exact arithmetic: proof for C50. *)
From Coq Require Import List Arith NArith Lia Permutation Reals Lra.
From Verif Require Import Num NumR Outcome Lib ModelExpr ModelGraph ModelSystem ModelMatching ModelSolve ModelApi
  Spec_Sketch Spec_Graph Spec_Matching Spec_Groups Spec_Solver Spec_History Spec_Components Spec_Pass Spec_Descent Spec_Whole
  Proofs_Graph Proofs_System Proofs_Calls Proofs_Solve Proofs_Safe Proofs_Step Proofs_History Proofs_Api
  Proofs_Components Proofs_Real Proofs_Pass Proofs_Whole Proofs_WholeR.
Import ListNotations.
Local Open Scope nat_scope.

(** ** Matchings *)
Lemma nodup_image {A B} (f : A -> B) l : NoDup l -> (forall a b, In a l -> In b l -> f a = f b -> a = b) -> NoDup (map f l).
Proof.
  induction l as [|a l IH]; simpl; intros N Inj; [constructor|]. apply NoDup_cons_iff in N. destruct N as [Na N].
  constructor; [|apply IH; auto]. intros Hin. apply in_map_iff in Hin. destruct Hin as (b & E & Hb). apply Na.
  rewrite (Inj a b); auto.
Qed.
Section Matching.
  Variables (g : eqgraph) (free : list nat) (M : list (nat * nat)).
  Hypothesis MM : is_maximum_matching (masked g free) M.
  Hypothesis Eg : forall v l, nth_error (eq_variables g) v = Some l ->
    forall e, In e l <-> mentions (eq_expressions g) e v.
  Hypothesis Hr : forall v, In v free -> v < length (eq_variables g).

  Lemma masked_edge v e : edge (masked g free) v e <-> In v free /\ mentions (eq_expressions g) e v.
  Proof.
    unfold edge. simpl. split.
    - intros (Hv & l & Hl & He). split; [auto|]. now apply (Eg _ _ Hl).
    - intros (Hv & He). split; [auto|]. destruct (nth_error_ex _ _ (Hr v Hv)) as [l Hl]. exists l. split; [auto|].
      now apply (Eg _ _ Hl).
  Qed.

  (** A free variable that occurs in an expression is settled by some expression *)
  Lemma mentioned_settled v e : In v free -> mentions (eq_expressions g) e v ->
    exists f, matched M f /\ determines (eq_expressions g) free M f v.
  Proof.
    intros Hv He. destruct MM as [(N1 & N2 & Ed) Mx].
    destruct (in_dec Nat.eq_dec v (map fst M)) as [Iv|Nv].
    { apply in_map_iff in Iv. destruct Iv as ((v', f) & E & Hin). simpl in E. subst v'.
      exists f. split; [now exists v|]. pose proof (proj1 (masked_edge v f) (Ed _ _ Hin)) as [_ Hm].
      split; [auto|]. split; [auto|]. now left. }
    assert (Nf : forall f, ~ In (v, f) M) by (intros f Hin; apply Nv; apply in_map_iff; now exists (v, f)).
    destruct (in_dec Nat.eq_dec e (map snd M)) as [Ie|Ne].
    { apply in_map_iff in Ie. destruct Ie as ((u, e') & E & Hin). simpl in E. subst e'.
      exists e. split; [now exists u|]. split; [auto|]. split; auto. }
    exfalso. assert (length ((v, e) :: M) <= length M); [|simpl in *; lia]. apply Mx. split; [|split].
    - simpl. now constructor.
    - simpl. now constructor.
    - intros a b [E|Hin]; [injection E as <- <-; apply masked_edge; auto|auto].
  Qed.

  (** If every matched expression, and [e], can be given a free variable of its
      own, then [e] is matched *)
  Lemma assigned_matched (own : nat -> nat) e :
    (forall f, matched M f \/ f = e -> In (own f) free /\ mentions (eq_expressions g) f (own f)) ->
    (forall f f', matched M f \/ f = e -> matched M f' \/ f' = e -> own f = own f' -> f = f') ->
    matched M e.
  Proof.
    intros Ho Inj. destruct MM as [(N1 & N2 & Ed) Mx].
    destruct (in_dec Nat.eq_dec e (map snd M)) as [Ie|Ne].
    { apply in_map_iff in Ie. destruct Ie as ((u, e') & E & Hin). simpl in E. subst e'. now exists u. }
    exfalso. set (es := e :: map snd M).
    assert (Hes : forall f, In f es -> matched M f \/ f = e).
    { intros f [<-|Hf]; [now right|]. left. apply in_map_iff in Hf. destruct Hf as ((u, f') & E & Hin).
      simpl in E. subst f'. now exists u. }
    assert (Nes : NoDup es) by (constructor; auto).
    assert (L : length (map (fun f => (own f, f)) es) <= length M).
    { apply Mx. split; [|split].
      - rewrite map_map. cbn [fst]. apply nodup_image; auto.
      - rewrite map_map. cbn [snd]. now rewrite map_id.
      - intros a b Hin. apply in_map_iff in Hin. destruct Hin as (f & E & Hf). injection E as <- <-.
        apply masked_edge. apply Ho. now apply Hes. }
    unfold es in L. rewrite map_length in L. simpl in L. rewrite map_length in L. lia.
  Qed.
End Matching.

Section PassWhole.
  Context {F : Type} {NF : Num F}.
  Implicit Types (s : system F) (env : solver_env F) (l : log F).

  (** What a run of groups leaves alone *)
  Lemma pass_frame env opt scale : forall gs s s', (forall g, In g gs -> NoDup (group_free_variables g)) ->
    ofold (solve_group env opt scale) gs s = Done s' ->
    exists vs vt, s' = with_values vs vt s /\ length vs = length (sys_variables s) /\
      length vt = length (sys_variables_transformed s) /\
      forall v, (forall g, In g gs -> ~ In v (group_free_variables g)) ->
        nth_error vs v = nth_error (sys_variables s) v /\
        nth_error vt v = nth_error (sys_variables_transformed s) v.
  Proof.
    induction gs as [|g gs IH]; cbn [ofold]; intros s s' N H.
    - inversion H; subst. exists (sys_variables s'), (sys_variables_transformed s'). split; [now destruct s'|auto].
    - apply obind_done in H. destruct H as (s1 & H1 & H).
      assert (N0 : NoDup (group_free_variables g)) by (apply N; simpl; auto).
      destruct (solve_group_sound _ _ _ _ _ _ N0 H1) as (vs1 & vt1 & E1 & L1 & L1' & _).
      pose proof (solve_group_frame _ _ _ _ _ _ N0 H1) as Fr. subst s1.
      destruct (IH _ _ (fun g' Hg' => N g' (or_intror Hg')) H) as (vs & vt & E & L & L' & Fr').
      exists vs, vt. subst s'. simpl in *. split; [reflexivity|]. split; [congruence|]. split; [congruence|].
      intros v Hv. destruct (Fr v) as [F1 F2]; [apply Hv; simpl; auto|].
      destruct (Fr' v) as [G1 G2]; [intros; apply Hv; simpl; auto|]. split; congruence.
  Qed.
End PassWhole.

(** ** One group of the sketch *)
Lemma square_le a b : (0 <= b)%R -> (a * a <= b * b)%R -> (Rabs a <= b)%R.
Proof.
  intros Hb H. apply Rsqr_incr_0; [|apply Rabs_pos|exact Hb]. unfold Rsqr.
  rewrite <- Rabs_mult, Rabs_right; [exact H|]. apply Rle_ge, Rle_0_sqr.
Qed.

(** An expression number mentions a variable *)
Notation occurs s e v := (exists x, nth_error (sys_expressions s) e = Some x /\ In v (variable_indices x)).

Lemma component_pass eps env opts scale id l (s : system R) rng vs vt rng' s' c :
  env_ok env -> history env id l s -> small l -> o_decomposer opts = SinglePass ->
  (0 <= eps)%R -> reaches eps env (o_optimizer opts) ->
  In c (components (sys_graph s)) -> c_elements c <> [] ->
  length vs = length (sys_variables s) -> length vt = length (sys_variables s) ->
  let s0 := scale_system scale s in
  solve_component env opts scale (rng, with_values vs vt s0) c = Done (rng', s') ->
  exists vs' vt' free M, s' = with_values vs' vt' s0 /\
    length vs' = length (sys_variables s) /\ length vt' = length (sys_variables s) /\
    component_free_variables s (c_elements c) = Done free /\
    is_maximum_matching (masked (sys_eqgraph s) free) M /\
    (forall v, ~ In v free -> nth_error vs' v = nth_error vs v /\ nth_error vt' v = nth_error vt v) /\
    (forall v e, In v free -> occurs s e v ->
       exists x, nth_error vt' v = Some x /\ nth_error vs' v = Some (scale * x)%R) /\
    (forall e, matched M e -> exists r, residual_in s' e = Done r /\ (Rabs r <= eps)%R).
Proof.
  intros EO H Sm Ed He Re Hc Ne Lvs Lvt s0 HS. unfold solve_component in HS.
  destruct (c_elements c) as [|e0 es0] eqn:Ec; [congruence|]. rewrite <- Ec in *.
  apply obind_done in HS. destruct HS as (free & Hf & HS).
  assert (Hf' : component_free_variables s (c_elements c) = Done free) by exact Hf.
  pose proof (component_free_spec _ _ _ Hf') as [N Hfr].
  apply obind_done in HS. destruct HS as ([rng1 vt1] & Hp & HS).
  apply obind_done in HS. destruct HS as (s2 & Hs2 & HS). inversion HS; subst rng' s'. clear HS.
  rewrite Ed in Hs2.
  assert (P1 : length vt1 = length vt /\ forall v, ~ In v free -> nth_error vt1 v = nth_error vt v).
  { simpl in Hp. destruct (o_perturb opts); [now apply perturb_spec in Hp|inversion Hp; subst; auto]. }
  destruct P1 as [L1 U1]. simpl in Hs2.
  destruct (history_inv _ _ _ _ EO H) as [sk I]. assert (Mo := iv_models _ _ _ _ I).
  assert (Rg : forall v, In v free -> v < length (sys_variables s)).
  { intros v Hv. apply Hfr in Hv. destruct Hv as (i & e & Hi & Hel & Hve & _).
    pose proof (group_variable _ _ _ _ _ _ Mo Hc Hi Hel Hve) as Q. apply nth_error_lt in Q.
    now rewrite (m_plen _ _ Mo) in Q. }
  assert (Es : with_values vs vt1 (with_values vs vt s0) = with_values vs vt1 s0) by reflexivity.
  assert (Hs2' : solve_single_pass env (o_optimizer opts) scale free (with_values vs vt1 (scale_system scale s)) = Done s2)
    by exact Hs2.
  destruct (single_pass env id l s scale vs vt1 (o_optimizer opts) free s2 EO H Sm Lvs ltac:(congruence) N Rg Hs2')
    as (M & gs & MM & GO & Hof & _ & _ & Wr & Zk).
  destruct (pass_frame env (o_optimizer opts) scale gs _ _ (go_vonce _ _ _ _ GO) Hof)
    as (vs' & vt' & E' & La & Lb & Fr). simpl in La, Lb, Fr.
  assert (Ge : eq_expressions (sys_eqgraph s) = map variable_indices (sys_expressions s)) by apply (m_eqe _ _ Mo).
  destruct (models_eq_ok _ _ Mo) as [Gl Gi].
  exists vs', vt', free, M. split; [rewrite E'; reflexivity|]. split; [congruence|]. split; [congruence|].
  split; [auto|]. split; [auto|]. split; [|split].
  - intros v Nv. rewrite <- (U1 v Nv). apply Fr. intros g Hg Hin. apply (go_vars _ _ _ _ GO _ _ Hg) in Hin.
    destruct Hin as (e & _ & _ & Hin & _). auto.
  - intros v e Hv (x & Hx & Hvx).
    destruct (mentioned_settled (sys_eqgraph s) free M MM Gi ltac:(intros; rewrite Gl; auto) v e Hv) as (f & Hm & Hd).
    { exists (variable_indices x). rewrite Ge, nth_error_map, Hx. auto. }
    apply (go_all _ _ _ _ GO) in Hm. destruct Hm as (g & Hg & Hfg).
    destruct (Wr v g Hg) as (y & Y1 & Y2).
    { apply (go_vars _ _ _ _ GO _ _ Hg). exists f. split; [auto|]. now rewrite <- Ge. }
    exists y. rewrite E' in Y1, Y2. simpl in Y1, Y2. auto.
  - apply (Zk (fun r => (Rabs r <= eps)%R)). intros pre g post s1 Egs H1 e Hge.
    rewrite ofold_app in H1. apply obind_done in H1. destruct H1 as (s3 & H3 & H1). cbn [ofold] in H1.
    apply obind_done in H1. destruct H1 as (s4 & H4 & H1). inversion H1; subst s4. clear H1.
    assert (Hg : In g gs) by (rewrite Egs; apply in_app_iff; simpl; auto).
    assert (O3 : run_ok s3).
    { destruct (pass_frame env (o_optimizer opts) scale pre _ _ (fun g' Hg' => go_vonce _ _ _ _ GO g' ltac:(rewrite Egs; apply in_app_iff; auto)) H3)
        as (vs3 & vt3 & E3 & La3 & Lb3 & _). simpl in La3, Lb3.
      assert (Oa : run_ok (scale_system scale s)).
      { unfold scale_system. apply (models_run_ok _ _ _ _ Mo); [now rewrite map_length|apply (small_room _ _ _ _ I Sm)]. }
      eapply (rewritten_run_ok (fun _ => True)); [|exact Oa].
      exists vs3, vt3. split; [rewrite E3; reflexivity|]. simpl. rewrite map_length. split; [congruence|]. split; [congruence|].
      intros v Hv. exfalso. apply Hv. exact Logic.I. }
    destruct (group_residuals _ _ _ _ _ _ O3 (go_vonce _ _ _ _ GO g Hg) H4) as (x & x' & Ho & Er). cbv zeta in Ho, Er.
    destruct (Re _ _ _ Ho) as (a & Ha & Hle).
    unfold objective in Ha. rewrite Er in Ha.
    destruct (omap (residual_in s1) (group_expressions g)) as [rs| |] eqn:Eo; try discriminate.
    pose proof (objective_sum _ _ rs Er) as Ha'. unfold objective in Ha'. rewrite Er in Ha'.
    rewrite Ha in Ha'. apply some_inj in Ha'.
    apply In_nth_error in Hge. destruct Hge as [i Hi].
    destruct (omap_nth' _ _ _ Eo _ _ Hi) as (r & Hri & Hr). exists r. split; [exact Hr|].
    apply square_le; [exact He|]. pose proof (Rsum_squares_in rs r (nth_error_In _ _ Hri)). lra.
Qed.

(** ** The expressions of a group *)
Lemma component_expressions_own (s : system R) cs : (forall k, In k cs -> k < length (sys_constraints s)) ->
  component_expressions s cs = Done (flat_map (own_expressions s) cs).
Proof.
  intros H. unfold component_expressions.
  assert (E : omap (fun c => let! ec := oget (sys_constraints s) c in
      Done (map (fun o => expressions_idx ec + o) (seq 0 (tag_valency (ec_tag ec))))) cs
    = Done (map (own_expressions s) cs)).
  { induction cs as [|k cs IH]; [reflexivity|]. cbn [omap map].
    destruct (nth_error_ex (sys_constraints s) k) as [ec Hec]; [apply H; simpl; auto|].
    rewrite (proj2 (oget_done _ _ _) Hec). cbn [obind]. rewrite IH by (intros; apply H; simpl; auto).
    cbn [obind]. unfold own_expressions at 2. rewrite Hec. reflexivity. }
  rewrite E. cbn [obind]. now rewrite flat_map_concat_map.
Qed.
Lemma expression_group (s : system R) sk e x : models s sk -> nth_error (sys_expressions s) e = Some x ->
  exists ci c es, nth_error (components (sys_graph s)) ci = Some c /\
    component_expressions s (c_constraints c) = Done es /\ In e es.
Proof.
  intros M Hx. destruct (m_expr _ _ M _ _ Hx) as (i & r & idx & es & k & Hr & Hec & Hes & Hk & ->).
  assert (P := wg_part _ (m_graph _ _ M)). rewrite (m_gclen _ _ M) in P.
  assert (Li := nth_error_lt _ _ _ Hr). pose proof (proj1 (p_ccov _ _ _ _ P i) Li) as (ci & c & Hc & Hin).
  exists ci, c, (flat_map (own_expressions s) (c_constraints c)). split; [auto|]. split.
  - apply component_expressions_own. intros j Hj. rewrite (m_clen _ _ M). apply (p_ccov _ _ _ _ P). eauto.
  - apply in_flat_map. exists i. split; [auto|]. unfold own_expressions. rewrite Hec. cbn [ec_tag expressions_idx].
    apply in_map_iff. exists k. split; [auto|]. apply in_seq. apply nth_error_lt in Hk.
    rewrite (compile_length _ _ _ Hes) in Hk. lia.
Qed.

Theorem pass_within eps env opts id l (s : system R) s' : env_ok env -> history env id l s -> small l ->
  together l s -> (0 < calculate_system_scale s)%R -> o_decomposer opts = SinglePass -> assignable s ->
  (0 <= eps)%R -> reaches eps env (o_optimizer opts) -> solve env opts s = Done s' ->
  forall e x, nth_error (sys_expressions s) e = Some x ->
    exists r, residual_in (scale_system (calculate_system_scale s) s') e = Done r /\ (Rabs r <= eps)%R.
Proof.
  intros EO H Sm To Hs Ed (own & Own & Inj) He Re HS. set (scale := calculate_system_scale s) in *.
  destruct (history_inv _ _ _ _ EO H) as [sk I]. assert (M := iv_models _ _ _ _ I).
  assert (C := together_gathered _ _ _ _ _ EO H I To).
  unfold solve in HS. fold scale in HS. set (s0 := scale_system scale s) in *.
  apply obind_done in HS. destruct HS as ([rng s1] & HS & E). inversion E; subst s1. clear E.
  assert (Ge : eq_expressions (sys_eqgraph s) = map variable_indices (sys_expressions s)) by apply (m_eqe _ _ M).
  destruct (models_eq_ok _ _ M) as [Gl Gi].
  assert (O0 : forall vs vt, length vs = length (sys_variables s) -> length vt = length (sys_variables s) ->
    run_ok (with_values vs vt s0)).
  { intros vs vt L1 L2. assert (Oa : run_ok s0).
    { unfold s0, scale_system. apply (models_run_ok _ _ _ _ M); [now rewrite map_length|apply (small_room _ _ _ _ I Sm)]. }
    eapply (rewritten_run_ok (fun _ => True)); [|exact Oa].
    exists vs, vt. split; [reflexivity|]. simpl. rewrite map_length. split; [congruence|]. split; [congruence|].
    intros v Hv. exfalso. apply Hv. exact Logic.I. }
  pose proof (ofold_inv_prefix (fun (pre : list component) (st : N * system R) =>
    exists vs vt, snd st = with_values vs vt s0 /\ length vs = length (sys_variables s) /\
      length vt = length (sys_variables s) /\
      (forall v e, occurs s e v -> exists x, nth_error vt v = Some x /\ nth_error vs v = Some (scale * x)%R) /\
      (forall c es e, In c pre -> component_expressions s (c_constraints c) = Done es -> In e es ->
         exists r, residual_in (with_values vs vt s0) e = Done r /\ (Rabs r <= eps)%R))
    (solve_component env opts scale) (components (sys_graph s0))) as G.
  destruct (G) with (s := (42%N, s0)) (s' := (rng, s')) as (vs & vt & Es & L1 & L2 & St & Ok); auto; clear G.
  - (* one more group *)
    intros pre c post [r1 s1] [r2 s2] Epre (vs & vt & Es & L1 & L2 & St & Ok) Hst. cbn [snd] in *. subst s1.
    assert (Hci : nth_error (components (sys_graph s)) (length pre) = Some c).
    { change (components (sys_graph s)) with (components (sys_graph s0)).
      rewrite Epre, nth_error_app2, Nat.sub_diag by lia. reflexivity. }
    assert (Hc := nth_error_In _ _ Hci).
    destruct (c_elements c) as [|e0 es0] eqn:Ec.
    { exists vs, vt. unfold solve_component in Hst. rewrite Ec in Hst. inversion Hst; subst.
      split; [auto|]. split; [auto|]. split; [auto|]. split; [auto|].
      intros c' es e Hc' Hes Hin. apply in_app_iff in Hc'. destruct Hc' as [Hc'|[<-|[]]]; [eauto|].
      destruct (component_expressions_in _ _ _ _ Hes Hin) as (k & _ & _ & Hk & _).
      exfalso. exact (group_not_empty _ _ _ _ M C Hc Hk Ec). }
    assert (Ne : c_elements c <> []) by congruence.
    destruct (component_pass eps env opts scale id l s r1 vs vt r2 s2 c EO H Sm Ed He Re Hc Ne L1 L2 Hst)
      as (vs' & vt' & free & Ma & E2 & L1' & L2' & Hf & MM & Fr & St' & Ok').
    pose proof (component_free_spec _ _ _ Hf) as [Nf Hfr]. fold s0 in E2.
    (* a variable of another group is not free in this one *)
    assert (Else : forall j c' id' el v, nth_error (components (sys_graph s)) j = Some c' -> In id' (c_elements c') ->
      nth_error (sys_elements s) id' = Some el -> In v (element_variables el) -> In v free -> j = length pre).
    { intros j c' id' el v Hj Hid Hel Hv Hin. apply Hfr in Hin. destruct Hin as (i2 & e2 & Q1 & Q2 & Q3 & _).
      eapply group_variable_unique; [exact M|exact Hj|exact Hci|exact Hid|exact Q1|exact Hel|exact Q2|exact Hv|exact Q3]. }
    exists vs', vt'. split; [auto|]. split; [auto|]. split; [auto|]. split.
    + intros v e Hoc. destruct (in_dec Nat.eq_dec v free) as [Iv|Nv]; [eapply St'; eauto|].
      destruct (Fr v Nv) as [-> ->]. eapply St; eauto.
    + intros c' es e Hc' Hes Hin. apply in_app_iff in Hc'. destruct Hc' as [Hc'|[<-|[]]].
      * (* handled before: nothing it mentions has changed *)
        destruct (Ok c' es e Hc' Hes Hin) as (r & Hr & Hle). exists r. split; [|exact Hle].
        rewrite <- Hr. rewrite <- E2. apply residual_frame.
        -- apply O0; auto.
        -- subst s2. reflexivity.
        -- subst s2. simpl. congruence.
        -- intros x v Hx Hv. subst s2. simpl in Hx |- *. apply Fr. intros Iv.
           apply In_nth_error in Hc'. destruct Hc' as [j Hj].
           assert (Hj' : nth_error (components (sys_graph s)) j = Some c').
           { change (components (sys_graph s)) with (components (sys_graph s0)). rewrite Epre. now apply nth_error_app_old. }
           rewrite nth_error_map in Hx. destruct (nth_error (sys_expressions s) e) as [x0|] eqn:Ex0; [|discriminate].
           injection Hx as <-. rewrite transform_indices in Hv.
           destruct (group_expression_variables _ _ _ _ _ _ _ M C (nth_error_In _ _ Hj') Hes Hin Ex0 Hv) as (i2 & el & Q1 & Q2 & Q3).
           pose proof (Else j c' i2 el v Hj' Q1 Q2 Q3 Iv). apply nth_error_lt in Hj. lia.
      * (* this group *)
        subst s2. apply Ok'.
        assert (Lx : forall f v, mentions (eq_expressions (sys_eqgraph s)) f v -> occurs s f v).
        { intros f v (ws & Hws & Hv). rewrite Ge, nth_error_map in Hws.
          destruct (nth_error (sys_expressions s) f) as [y|] eqn:Ey; [|discriminate]. injection Hws as <-. exists y. auto. }
        assert (Here : forall f, matched Ma f \/ f = e -> exists y, nth_error (sys_expressions s) f = Some y /\
          forall v, In v (variable_indices y) -> exists i2 el, In i2 (c_elements c) /\
            nth_error (sys_elements s) i2 = Some el /\ In v (element_variables el)).
        { intros f [(v & Hv)| ->].
          - destruct MM as [(_ & _ & Edg) _]. pose proof (Edg _ _ Hv) as Ev.
            apply (masked_edge (sys_eqgraph s) free Gi) in Ev.
            2:{ intros w Hw. rewrite Gl. apply Hfr in Hw. destruct Hw as (i2 & e2 & Q1 & Q2 & Q3 & _).
                pose proof (group_variable _ _ _ _ _ _ M Hc Q1 Q2 Q3) as Q. apply nth_error_lt in Q.
                now rewrite (m_plen _ _ M) in Q. }
            destruct Ev as [Fv Hm]. destruct (Lx _ _ Hm) as (y & Hy & Hvy). exists y. split; [auto|].
            destruct (expression_group s sk f y M Hy) as (j & c' & es' & Hj & Hes' & Hin').
            destruct (group_expression_variables _ _ _ _ _ _ _ M C (nth_error_In _ _ Hj) Hes' Hin' Hy Hvy) as (i2 & el & Q1 & Q2 & Q3).
            pose proof (Else j c' i2 el v Hj Q1 Q2 Q3 Fv) as ->. rewrite Hci in Hj. injection Hj as <-.
            intros w Hw. exact (group_expression_variables _ _ _ _ _ _ _ M C Hc Hes' Hin' Hy Hw).
          - destruct (component_expressions_in _ _ _ _ Hes Hin) as (k & ec & o & Hk & Hec & Ho & Ee).
            assert (Lk : k < length (sk_relations sk)) by (rewrite <- (m_clen _ _ M); eapply nth_error_lt; eauto).
            destruct (nth_error_ex _ _ Lk) as [r Hr]. destruct (m_rel _ _ M _ _ Hr) as (idx & es' & Q1 & Q2 & Q3).
            rewrite Q1 in Hec. injection Hec as <-. cbn [ec_tag expressions_idx] in Ho, Ee.
            destruct (nth_error_ex es' o) as [y Hy]; [rewrite (compile_length _ _ _ Q2); auto|].
            destruct (Q3 _ _ Hy) as [Hy' _]. rewrite <- Ee in Hy'. exists y. split; [auto|].
            intros w Hw. exact (group_expression_variables _ _ _ _ _ _ _ M C Hc Hes Hin Hy' Hw). }
        apply (assigned_matched (sys_eqgraph s) free Ma MM Gi) with (own := own).
        -- intros w Hw. rewrite Gl. apply Hfr in Hw. destruct Hw as (i2 & e2 & Q1 & Q2 & Q3 & _).
           pose proof (group_variable _ _ _ _ _ _ M Hc Q1 Q2 Q3) as Q. apply nth_error_lt in Q.
           now rewrite (m_plen _ _ M) in Q.
        -- intros f Hfm. destruct (Here f Hfm) as (y & Hy & Hv). destruct (Own f y Hy) as [O1 O2]. split.
           ++ apply Hfr. destruct (Hv _ O1) as (i2 & el & Q1 & Q2 & Q3). exists i2, el. auto.
           ++ exists (variable_indices y). rewrite Ge, nth_error_map, Hy. auto.
        -- intros f f' Hfm Hfm' Eo. destruct (Here f Hfm) as (y & Hy & _). destruct (Here f' Hfm') as (y' & Hy' & _).
           apply Inj; auto; eapply nth_error_lt; eauto.
  - (* before the first group *)
    exists (sys_variables s), (sys_variables_transformed s0). split; [reflexivity|]. split; [reflexivity|].
    split; [apply map_length|]. split; [|intros c es e []].
    intros v e (x & Hx & Hv). assert (Lv := expr_vars_range _ _ _ _ _ M Hx Hv).
    destruct (nth_error_ex _ _ Lv) as [a Ha]. exists (a * (1 / scale))%R.
    change (sys_variables_transformed s0) with (map (fun w : R => (w * (1 / scale))%R) (sys_variables s)).
    rewrite nth_error_map, Ha. split; [reflexivity|]. f_equal. clearbody scale. field. lra.
  - (* after the last one *)
    intros e x Hx. cbn [snd] in Es.
    destruct (expression_group s sk e x M Hx) as (ci & c & es & Hc & Hes & Hin).
    destruct (Ok c es e (nth_error_In _ _ Hc) Hes Hin) as (r & Hr & Hle). exists r. split; [|exact Hle].
    rewrite <- Hr, Es. unfold residual_in.
    change (sys_expressions_transformed (scale_system scale (with_values vs vt s0)))
      with (map (transform (1 / scale)%R) (sys_expressions s)).
    change (sys_expressions_transformed (with_values vs vt s0)) with (map (transform (1 / scale)%R) (sys_expressions s)).
    assert (Et : oget (map (transform (1 / scale)%R) (sys_expressions s)) e = Done (transform (1 / scale)%R x)).
    { apply oget_done. rewrite nth_error_map, Hx. reflexivity. }
    rewrite Et. cbn [obind]. apply residual_map. intros v Hv. rewrite transform_indices in Hv.
    change (sys_variables_transformed (scale_system scale (with_values vs vt s0)))
      with (map (fun w : R => (w * (1 / scale))%R) vs).
    change (sys_variables_transformed (with_values vs vt s0)) with vt.
    destruct (St v e) as (a & Ha & Hb); [exists x; auto|]. unfold identity_map, oget.
    rewrite nth_error_map, Hb, Ha. cbn [option_map obind]. do 2 eexists. split; [reflexivity|]. split; [reflexivity|].
    cbn [variable_value]. clearbody scale. field. lra.
Qed.

(** What the client reads off *)
Lemma residual_within bound u (s : system R) sk k : (0 < u)%R -> (0 <= bound)%R -> models s sk ->
  In k (constraint_handles sk) ->
  (forall e x, nth_error (sys_expressions s) e = Some x ->
     exists r, residual_in (scale_system u s) e = Done r /\ (Rabs r <= bound)%R) ->
  exists x, constraint_residual k s = Done x /\
    (Rabs x <= bound * sqrt (INR (tag_valency (ch_tag k))) * u ^ dimension (ch_tag k))%R.
Proof.
  intros Hu Hb M K A. destruct (handle_share u s sk k Hu M K) as (y & Hy & Hsh).
  unfold relative_residual in Hy. apply obind_done in Hy. destruct Hy as (x & Hx & Hy).
  apply (f_equal (fun o => match o with Done z => z | _ => y end)) in Hy. cbv beta iota in Hy.
  exists x. split; [exact Hx|]. apply in_constraint_handles in K. destruct K as (r & Hr & _ & Ht).
  destruct (own_residuals u s sk (ch_id k) r Hu M Hr) as [rs Hrs].
  assert (B : (share u s (ch_id k) <= bound * bound * INR (tag_valency (ch_tag k)))%R).
  { unfold share. rewrite Hrs. destruct (m_rel _ _ M _ _ Hr) as (idx & es & Hc & Hes & Hk).
    assert (L : length rs = tag_valency (ch_tag k)).
    { rewrite (omap_length _ _ _ Hrs). unfold own_expressions. rewrite Hc. cbn [ec_tag].
      now rewrite map_length, seq_length, Ht. }
    rewrite <- L. assert (Q : forall z, In z rs -> (Rabs z <= bound)%R).
    { intros z Hz. destruct (omap_in _ _ _ _ Hrs Hz) as (j & Hj & Ej).
      unfold own_expressions in Hj. rewrite Hc in Hj. cbn [ec_tag expressions_idx] in Hj.
      apply in_map_iff in Hj. destruct Hj as (o & <- & Ho). apply in_seq in Ho.
      destruct (nth_error_ex es o) as [e He]; [rewrite (compile_length _ _ _ Hes); lia|].
      destruct (Hk _ _ He) as [He' _]. destruct (A _ _ He') as (z' & Hz' & Hle).
      rewrite Ej in Hz'. injection Hz' as ->. exact Hle. }
    clear - Q Hb. induction rs as [|z rs IH]; cbn [map fold_right length].
    - simpl. lra.
    - rewrite S_INR. assert (Z := Q z (or_introl eq_refl)). specialize (IH (fun w Hw => Q w (or_intror Hw))).
      assert (z * z <= bound * bound)%R.
      { rewrite <- (Rabs_right (z * z)) by (apply Rle_ge; apply Rle_0_sqr). rewrite Rabs_mult.
        apply Rmult_le_compat; auto using Rabs_pos. }
      lra. }
  set (w := (u ^ dimension (ch_tag k))%R) in *.
  assert (Pw : (0 < w)%R) by now apply pow_lt. clearbody w.
  set (n := INR (tag_valency (ch_tag k))) in *. assert (Pn : (0 <= n)%R) by apply pos_INR.
  assert (Ey : (x = y * w)%R) by (rewrite <- Hy; field; lra).
  rewrite Ey, Rabs_mult, (Rabs_right w) by lra. apply Rmult_le_compat_r; [lra|].
  apply Rsqr_incr_0.
  - unfold Rsqr. rewrite <- Rabs_mult, Rabs_right by (apply Rle_ge; apply Rle_0_sqr).
    replace (bound * sqrt n * (bound * sqrt n))%R with (bound * bound * (sqrt n * sqrt n))%R by ring.
    rewrite sqrt_sqrt by exact Pn. rewrite Hsh. exact B.
  - apply Rabs_pos.
  - apply Rmult_le_pos; [exact Hb|apply sqrt_pos].
Qed.

Theorem pass_solved_within eps env opts id l (s : system R) s' k : env_ok env -> history env id l s -> small l ->
  together l s -> (0 < calculate_system_scale s)%R -> o_decomposer opts = SinglePass -> assignable s ->
  (0 <= eps)%R -> reaches eps env (o_optimizer opts) -> solve env opts s = Done s' ->
  In (RConstraint k) (map snd l) ->
  exists x, constraint_residual k s' = Done x /\
    (Rabs x <= eps * sqrt (INR (tag_valency (ch_tag k))) * calculate_system_scale s ^ dimension (ch_tag k))%R.
Proof.
  intros EO H Sm To Hs Ed As He Re Hv K. destruct (history_inv _ _ _ _ EO H) as [sk I].
  destruct (solve_models _ _ _ _ _ _ _ EO H I Hv) as (sk' & M' & Eid & Eh & El).
  assert (Kc := known_own_c _ _ _ _ _ I K). rewrite <- Eh in Kc.
  eapply residual_within; [exact Hs|exact He|exact M'|exact Kc|].
  intros e x Hx. eapply pass_within; eauto.
  assert (Ee : sys_expressions s' = sys_expressions s) by (
    destruct (solve_sound env opts s s' EO (models_eq_ok _ _ (iv_models _ _ _ _ I)) (models_el_ok _ _ (iv_models _ _ _ _ I)) Hv)
      as (vt & et & vs' & vt' & -> & _); reflexivity).
  rewrite <- Ee. exact Hx.
Qed.
