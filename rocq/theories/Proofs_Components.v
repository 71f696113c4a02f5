(** The solving groups of a history: proofs for C17. *)
From Coq Require Import List Arith NArith Lia.
From Verif Require Import Num Outcome Lib ModelExpr ModelGraph ModelSystem ModelSolve ModelApi
  Spec_Sketch Spec_Graph Spec_Solver Spec_History Spec_Components
  Proofs_Graph Proofs_System Proofs_Calls Proofs_Solve Proofs_Step Proofs_History Proofs_Api.
Import ListNotations.

(** ** On the graph *)
Record closed (g : graph) : Prop := {
  cl_ec : forall e ci, nth_error (element_component g) e = Some (Some ci) -> holds_element g ci e;
  cl_con : forall ci k es e, holds_constraint g ci k -> nth_error (hyperedges g) k = Some es ->
    In e es -> nth_error (element_component g) e = Some (Some ci)
}.

Lemma closed_new : closed graph_new.
Proof.
  constructor; simpl.
  - intros [|e] ci H; discriminate.
  - intros ci k es e _ H. destruct k; discriminate.
Qed.

Lemma closed_add_element d g : closed g -> closed (graph_add_element d g).
Proof.
  intros [c1 c2]. constructor; simpl.
  - intros e ci H. apply nth_error_snoc in H. destruct H as [[_ H]|[_ H]]; [exact (c1 _ _ H)|discriminate].
  - intros ci k es e H1 H2 H3. apply nth_error_app_old. eapply c2; eauto.
Qed.

Lemma largest_component_some g elements : wf_graph g -> closed g ->
  forall best size, largest_component g elements = Done (best, size) ->
  (forall e ci, In e elements -> nth_error (element_component g) e = Some (Some ci) -> best <> None).
Proof.
  intros W C best size H.
  assert (P : best = None -> forall e ci, In e elements ->
                nth_error (element_component g) e <> Some (Some ci)).
  2: { intros e ci He Hc Hb. eapply P; eauto. }
  unfold largest_component in H.
  apply (ofold_inv_prefix (fun pre (st : option nat * nat) =>
     (fst st = None -> snd st = 0) /\
     (fst st = None -> forall e ci, In e pre -> nth_error (element_component g) e <> Some (Some ci)))) in H.
  - exact (proj2 H).
  - intros pre e post [t sz] [t' sz'] El [I0 I1] S. simpl in S.
    apply obind_done in S. destruct S as (oc & Hoc & S). apply oget_done in Hoc.
    destruct oc as [ci|].
    + apply obind_done in S. destruct S as (c & Hc & S). apply oget_done in Hc.
      destruct (cl_ec _ C _ _ Hoc) as (c' & Hc' & Hin). rewrite Hc in Hc'. inversion Hc'; subst c'.
      assert (L : 0 < length (c_elements c)) by (destruct (c_elements c); [contradiction|simpl; lia]).
      destruct (Nat.ltb_spec sz (length (c_elements c))); inversion S; subst; simpl in *.
      * split; discriminate.
      * destruct t'; [split; discriminate|]. specialize (I0 eq_refl). lia.
    + inversion S; subst. simpl in *. split; [auto|]. intros E x ci Hx Hxc.
      apply in_app_iff in Hx. destruct Hx as [Hx|[<-|[]]]; [exact (I1 E _ _ Hx Hxc)|congruence].
  - simpl. split; auto.
Qed.

Lemma closed_add_constraint v elements g g' : wf_graph g -> closed g ->
  (forall e e' ci cj, In e elements -> In e' elements ->
     nth_error (element_component g) e = Some (Some ci) ->
     nth_error (element_component g) e' = Some (Some cj) -> ci = cj) ->
  graph_add_constraint v elements g = Done g' -> closed g'.
Proof.
  intros W C Same H. unfold graph_add_constraint in H.
  apply obind_done in H. destruct H as (g1 & Hm & H).
  apply obind_done in H. destruct H as (es & _ & H). inversion H; subst g'; clear H.
  unfold merge_connected_components in Hm.
  apply obind_done in Hm. destruct Hm as ([best size] & Hb & Hm).
  pose proof (largest_component_some _ _ W C _ _ Hb) as Hsome.
  set (K := length (g_constraints g)) in *.
  set (ec0 := element_component g) in *.
  assert (Q : exists t comps tc,
     (match best with Some ci => (ci, components g)
        | None => (length (components g), components g ++ [empty_component]) end) = (t, comps) /\
     nth_error comps t = Some tc /\
     (forall e x, In e elements -> nth_error ec0 e = Some (Some x) -> x = t) /\
     (forall e, nth_error ec0 e = Some (Some t) -> In e (c_elements tc)) /\
     (forall j c, j <> t -> (nth_error comps j = Some c <-> nth_error (components g) j = Some c)) /\
     (forall k, In k (c_constraints tc) -> holds_constraint g t k)).
  { destruct best as [t|].
    - destruct (largest_component_spec _ _ _ _ Hb t eq_refl) as ((e0 & He0 & Hc0) & Hci).
      destruct (nth_error_ex _ _ Hci) as [tc Htc].
      exists t, (components g), tc. split; [auto|]. split; [auto|]. split.
      { intros e x He Hx. apply (Same e e0); auto. }
      split.
      { intros e He. destruct (cl_ec _ C _ _ He) as (c & Hc & Hin). congruence. }
      split; [tauto|]. intros k Hk. exists tc; auto.
    - exists (length (components g)), (components g ++ [empty_component]), empty_component.
      split; [auto|]. split; [apply nth_error_app_new|]. split.
      { intros e x He Hx. exfalso. eapply Hsome; eauto. }
      split.
      { intros e He. destruct (cl_ec _ C _ _ He) as (c & Hc & _). apply nth_error_lt in Hc. lia. }
      split.
      { intros j c Nj. split; intros H.
        - apply nth_error_snoc in H. destruct H as [[_ H]|[H _]]; [auto|lia].
        - now apply nth_error_app_old. }
      intros k []. }
  destruct Q as (t & comps & tc & Eq & Htc & Q1 & Q2 & Q3 & Q4).
  rewrite Eq in Hm. apply obind_done in Hm. destruct Hm as (tc' & Htc' & Hm).
  apply oget_done in Htc'. rewrite Htc in Htc'. inversion Htc'; subst tc'; clear Htc'.
  assert (Ht : t < length comps) by (eapply nth_error_lt; eauto).
  apply obind_done in Hm. destruct Hm as ([[ec' comps'] tc'] & Hl & Hm).
  apply (ofold_inv_prefix (fun pre (st : list (option nat) * list component * component) =>
     let '(ec, cs, tc1) := st in
     length cs = length comps /\
     (forall j, nth_error cs j = nth_error (lset comps t empty_component) j) /\
     (forall e x, In e elements -> nth_error ec e = Some (Some x) -> x = t) /\
     (forall e, nth_error ec e = Some (Some t) -> In e (c_elements tc1)) /\
     (forall e, In e pre -> nth_error ec e = Some (Some t)) /\
     (forall e, nth_error ec e <> nth_error ec0 e -> In e pre) /\
     (forall e, ~ In e elements -> nth_error ec e = nth_error ec0 e) /\
     (forall k, In k (c_constraints tc1) -> In k (c_constraints tc)))) in Hl.
  - destruct Hl as (L & I1 & I2 & I3 & I4 & I4' & I5 & I6).
    apply obind_done in Hm. destruct Hm as (cs & Hs & Hm). apply oset_done in Hs. destruct Hs as [Hs ->].
    inversion Hm; subst g1; clear Hm. simpl.
    set (tcf := Component (c_elements tc') (set_insert K (c_constraints tc'))).
    assert (E1 : nth_error (lset comps' t tcf) t = Some tcf) by (apply nth_error_lset_eq; auto).
    assert (E2 : forall j c, j <> t -> (nth_error (lset comps' t tcf) j = Some c <-> nth_error (components g) j = Some c)).
    { intros j c Nj. rewrite nth_error_lset_ne, I1, nth_error_lset_ne by auto. now apply Q3. }
    assert (Old : forall e ci, ~ In e elements -> nth_error ec0 e = Some (Some ci) ->
               nth_error ec' e = Some (Some ci)).
    { intros e ci Hn He. now rewrite I5. }
    constructor; simpl.
    + intros e ci He. destruct (in_dec Nat.eq_dec e elements) as [Hin|Hn].
      * assert (ci = t) by (eapply I2; eauto). subst. exists tcf. simpl. split; [exact E1|]. now apply I3.
      * destruct (Nat.eq_dec ci t) as [->|Nt].
        -- exists tcf. simpl. split; [exact E1|]. now apply I3.
        -- rewrite I5 in He by auto. destruct (cl_ec _ C _ _ He) as (c & Hc & Hi). exists c. split; [|auto].
           simpl. apply E2; auto.
    + intros ci k es0 e (c & Hc & Hk) Hes He. unfold hyperedges in Hes. simpl in Hc, Hes.
      rewrite map_app in Hes. simpl in Hes.
      assert (HK : length (hyperedges g) = K) by (unfold hyperedges; now rewrite map_length).
      apply nth_error_snoc in Hes. fold (hyperedges g) in Hes.
      assert (Hkc : (ci = t /\ k = K) \/ (holds_constraint g ci k)).
      { destruct (Nat.eq_dec ci t) as [->|Nt].
        - rewrite E1 in Hc. inversion Hc; subst c. simpl in Hk. apply in_set_insert in Hk.
          destruct Hk as [->|Hk]; [auto|]. right. auto.
        - right. exists c. split; [|auto]. apply E2; auto. }
      destruct Hes as [[Hlt Hes]|[Hkn Hes]].
      * destruct Hkc as [[_ ->]|Hkc]; [lia|].
        pose proof (cl_con _ C _ _ _ _ Hkc Hes He) as Hold.
        destruct (in_dec Nat.eq_dec e elements) as [Hin|Hn]; [|apply Old; auto].
        rewrite (I4 e Hin). f_equal. f_equal. symmetry. eapply Q1; eauto.
      * subst es0. destruct Hkc as [[-> _]|(c1 & Hc1 & Hk1)]; [apply I4; auto|].
        exfalso. assert (k < K); [|lia].
        apply (p_ccov _ _ _ _ (wg_part _ W)). eauto.
  - intros pre e post [[ec cs] tc1] [[ec1 cs1] tc2] El (L & I1 & I2 & I3 & I4 & I4' & I5 & I6) S.
    assert (He : In e elements) by (rewrite El; apply in_app_iff; simpl; auto).
    unfold merge_step in S. apply obind_done in S. destruct S as (oc & Hoc & S). apply oget_done in Hoc.
    assert (Lec : e < length ec) by (eapply nth_error_lt; eauto).
    assert (N : forall x, nth_error (lset ec e (Some t)) x = if Nat.eqb e x then Some (Some t) else nth_error ec x).
    { intros x. rewrite nth_error_lset. destruct (Nat.eqb_spec e x); [|auto]. subst.
      destruct (Nat.ltb_spec x (length ec)); [auto|lia]. }
    destruct oc as [ci|].
    + assert (ci = t) by (eapply I2; eauto). subst ci.
      apply obind_done in S. destruct S as (c & Hc & S). apply oget_done in Hc.
      rewrite I1, nth_error_lset_eq in Hc by auto. inversion Hc; subst c; clear Hc.
      apply obind_done in S. destruct S as (ec2 & Hs & S). apply oset_done in Hs. destruct Hs as [_ ->].
      inversion S; subst; clear S. simpl. rewrite lset_length. split; [auto|]. split.
      { intros j. rewrite !nth_error_lset. rewrite L. destruct (Nat.eqb_spec t j); [auto|].
        rewrite I1. rewrite nth_error_lset_ne; auto. }
      split.
      { intros x y Hx Hy. rewrite N in Hy. destruct (Nat.eqb_spec e x); [congruence|eauto]. }
      split.
      { intros x Hx. rewrite N in Hx. destruct (Nat.eqb_spec e x); [subst; auto|auto]. }
      split.
      { intros x Hx. rewrite N. destruct (Nat.eqb_spec e x); [auto|]. apply in_app_iff in Hx.
        destruct Hx as [Hx|[Hx|[]]]; [auto|congruence]. }
      split.
      { intros x Hx. rewrite N in Hx. destruct (Nat.eqb_spec e x); [subst; apply in_app_iff; simpl; auto|].
        apply in_app_iff. left. auto. }
      split.
      { intros x Hx. rewrite N. destruct (Nat.eqb_spec e x); [subst; contradiction|auto]. }
      auto.
    + apply obind_done in S. destruct S as (ec2 & Hs & S). apply oset_done in Hs. destruct Hs as [_ ->].
      inversion S; subst; clear S. simpl. split; [auto|]. split; [auto|].
      split.
      { intros x y Hx Hy. rewrite N in Hy. destruct (Nat.eqb_spec e x); [congruence|eauto]. }
      split.
      { intros x Hx. apply in_set_insert. rewrite N in Hx. destruct (Nat.eqb_spec e x); [subst; auto|auto]. }
      split.
      { intros x Hx. rewrite N. destruct (Nat.eqb_spec e x); [auto|]. apply in_app_iff in Hx.
        destruct Hx as [Hx|[Hx|[]]]; [auto|congruence]. }
      split.
      { intros x Hx. rewrite N in Hx. destruct (Nat.eqb_spec e x); [subst; apply in_app_iff; simpl; auto|].
        apply in_app_iff. left. auto. }
      split.
      { intros x Hx. rewrite N. destruct (Nat.eqb_spec e x); [subst; contradiction|auto]. }
      auto.
  - rewrite lset_length. split; [auto|]. split; [auto|]. split; [auto|]. split; [auto|].
    split; [intros e []|]. split; [intros e; congruence|]. split; [auto|]. auto.
Qed.

Lemma closed_linked g a b ci : wf_graph g -> closed g -> linked (hyperedges g) a b ->
  nth_error (element_component g) a = Some (Some ci) ->
  nth_error (element_component g) b = Some (Some ci).
Proof.
  intros W C H. induction H as [a|a b c es Hes Ha Hb H IH]; auto.
  intros E. apply IH. apply In_nth_error in Hes. destruct Hes as [k Hk].
  assert (Lk : k < length (g_constraints g)).
  { apply nth_error_lt in Hk. unfold hyperedges in Hk. now rewrite map_length in Hk. }
  apply (p_ccov _ _ _ _ (wg_part _ W)) in Lk. destruct Lk as (cj & c0 & H1 & H2).
  assert (HC : holds_constraint g cj k) by (exists c0; auto).
  rewrite (cl_con _ C _ _ _ _ HC Hk Hb). rewrite (cl_con _ C _ _ _ _ HC Hk Ha) in E. auto.
Qed.
Lemma closed_holds g ci e : wf_graph g -> closed g ->
  (holds_element g ci e <-> nth_error (element_component g) e = Some (Some ci)).
Proof.
  intros W C. split; [|apply cl_ec; auto]. intros (c & Hc & He).
  assert (P := wg_part _ W). assert (L := p_range _ _ _ _ P _ _ _ Hc He).
  destruct (nth_error_ex _ _ L) as [x Hx]. rewrite Hx.
  assert (Nx : x <> None) by (apply (p_cov _ _ _ _ P _ _ Hx); eauto).
  destruct x as [cj|]; [|congruence]. destruct (cl_ec _ C _ _ Hx) as (c' & Hc' & He').
  rewrite (p_disj _ _ _ _ P _ _ _ _ _ Hc Hc' He He'). auto.
Qed.

(** ** On histories *)
Section History.
  Context {F : Type} {NF : Num F}.
  Implicit Types (l : log F) (s : system F) (sk : sketch F).

  Lemma add_constraint_graph tag es s s' h : add_constraint tag es s = Done (s', h) ->
    sys_graph s' = sys_graph s.
  Proof.
    unfold add_constraint. intros H. apply obind_done in H. destruct H as (i & _ & H).
    apply obind_done in H. destruct H as (j & _ & H). apply obind_done in H. destruct H as (s2 & H & E).
    apply push_expressions_spec in H. destruct H as (eg & -> & _). inversion E; subst. auto.
  Qed.
  Lemma graph_constraint_added v els tag es s s' h :
    (let! s1 := with_graph_constraint v els s in add_constraint tag es s1) = Done (s', h) ->
    exists v els, graph_add_constraint v els (sys_graph s) = Done (sys_graph s').
  Proof.
    intros H. apply obind_done in H. destruct H as (s1 & H1 & H). apply add_constraint_graph in H.
    unfold with_graph_constraint in H1. apply obind_done in H1. destruct H1 as (g & Hg & E).
    inversion E; subst. simpl in H. exists v, els. now rewrite H.
  Qed.

  Lemma step_graph env c s s' r sk : env_ok env -> models s sk -> step env c s = Done (s', r) ->
    match r with
    | RConstraint _ => exists v els, graph_add_constraint v els (sys_graph s) = Done (sys_graph s')
    | _ => sys_graph s' = sys_graph s \/ exists d, sys_graph s' = graph_add_element d (sys_graph s)
    end.
  Proof.
    intros EO M H.
    assert (El : forall m, ret_element m = Done (s', r) ->
        (forall s1 h, m = Done (s1, h) -> exists d, sys_graph s1 = graph_add_element d (sys_graph s)) ->
        match r with
        | RConstraint _ => exists v els, graph_add_constraint v els (sys_graph s) = Done (sys_graph s')
        | _ => sys_graph s' = sys_graph s \/ exists d, sys_graph s' = graph_add_element d (sys_graph s)
        end).
    { intros m H1 Q. unfold ret_element in H1. apply obind_done in H1. destruct H1 as ([s1 h] & H1 & E).
      inversion E; subst. right. eauto. }
    assert (Co : forall m, ret_constraint m = Done (s', r) ->
        (forall s1 h, m = Done (s1, h) -> exists v els, graph_add_constraint v els (sys_graph s) = Done (sys_graph s1)) ->
        match r with
        | RConstraint _ => exists v els, graph_add_constraint v els (sys_graph s) = Done (sys_graph s')
        | _ => sys_graph s' = sys_graph s \/ exists d, sys_graph s' = graph_add_element d (sys_graph s)
        end).
    { intros m H1 Q. unfold ret_constraint in H1. apply obind_done in H1. destruct H1 as ([s1 h] & H1 & E).
      inversion E; subst. eauto. }
    assert (Un : forall m, ret_unit m = Done (s', r) ->
        (forall s1, m = Done s1 -> sys_graph s1 = sys_graph s) ->
        match r with
        | RConstraint _ => exists v els, graph_add_constraint v els (sys_graph s) = Done (sys_graph s')
        | _ => sys_graph s' = sys_graph s \/ exists d, sys_graph s' = graph_add_element d (sys_graph s)
        end).
    { intros m H1 Q. unfold ret_unit in H1. apply obind_done in H1. destruct H1 as (s1 & H1 & E).
      inversion E; subst. auto. }
    assert (Ae : forall tag vs enc s1 h, add_element tag vs enc s = Done (s1, h) ->
        exists d, sys_graph s1 = graph_add_element d (sys_graph s)).
    { intros tag vs enc s1 h H1. unfold add_element in H1. apply obind_done in H1. destruct H1 as (i & _ & H1).
      apply obind_done in H1. destruct H1 as (j & _ & H1). inversion H1; subst. simpl. eauto. }
    Ltac peel H := repeat (match type of H with
      | (let! _ := with_graph_constraint _ _ _ in _) = _ => fail 1
      | obind _ _ = Done _ => apply obind_done in H; destruct H as (? & _ & H)
      | (let '(_, _) := ?x in _) = _ => destruct x
      end).
    destruct c; simpl in H.
    all: try (eapply El; [exact H|]; clear H; intros s1 h1 H;
              unfold length_create, point_create, line_create, circle_create in H; peel H; eapply Ae; exact H).
    all: try (eapply Co; [exact H|]; clear H; intros s1 h1 H;
      unfold coincidence_create, ppd_create, pppa_create, pli_create, pld_create, pci_create,
        ssle_create, lla_create, llp_create, llperp_create, lct_create, line_line_create in H; peel H;
      eapply graph_constraint_added; exact H).
    1-5: eapply Un; [exact H|]; clear H; intros s1 H;
      unfold fix_element, unfix_element, point_update_value, length_update_value, update_parameter in H;
      peel H; inversion H; subst; reflexivity.
    1,2,5: peel H; inversion H; subst; auto.
    1,2: inversion H; subst; auto.
    eapply Un; [exact H|]; clear H; intros s1 H.
    destruct (solve_sound _ _ _ _ EO (models_eq_ok _ _ M) (models_el_ok _ _ M) H) as (vt & et & vs & vt' & -> & _).
    reflexivity.
  Qed.

  Lemma parts_known env id l s h p : history env id l s -> In p (parts l h) ->
    p = h \/ In (RElement p) (map snd l).
  Proof.
    intros H. induction H as [|l s c s' r H IH A Hs]; intros Hp; [destruct Hp as [->|[]]; auto|].
    assert (Old : In p (parts l h) -> p = h \/ In (RElement p) (map snd ((c, r) :: l))).
    { intros Hp0. destruct (IH Hp0); simpl; auto. }
    destruct c; simpl in Hp; auto; destruct r; auto; destruct (ehandle_dec h0 h); auto.
    all: right; right; destruct A as [A _]; simpl in A; destruct Hp as [<-|[<-|[]]]; eapply A; eauto.
  Qed.

  (** The edge of the graph that stands for a constraint *)
  Lemma constraint_edge id l s sk c k : inv id l s sk -> In (c, RConstraint k) l ->
    nth_error (hyperedges (sys_graph s)) (ch_id k) = Some (map eh_id (touched l c)).
  Proof.
    intros I Hin. assert (M := iv_models _ _ _ _ I).
    destruct (iv_con _ _ _ _ I _ _ Hin) as (r & Hr & _ & Hi).
    assert (L : ch_id k < length (g_constraints (sys_graph s))).
    { rewrite (m_gclen _ _ M). eapply nth_error_lt; eauto. }
    destruct (nth_error_ex _ _ L) as [gc Hgc]. unfold hyperedges.
    rewrite nth_error_map, Hgc. simpl. f_equal. rewrite (m_ginc _ _ M _ _ _ Hr Hgc).
    unfold prims. rewrite Hi. unfold call_ids, touched.
    assert (K : forall h t, In (h, t) (call_elements c) -> In h (element_handles sk)).
    { intros h t Hh. eapply (iv_known _ _ _ _ I); eauto. }
    induction (call_elements c) as [|[h t] es IH]; simpl; auto.
    rewrite map_app, IH by (intros; eapply K; right; eauto). f_equal.
    specialize (K h t (or_introl eq_refl)). apply in_element_handles in K. destruct K as (it & Hit & Hs & Ht).
    unfold ends. rewrite Hit. rewrite (iv_parts _ _ _ _ I h it) by (auto; now rewrite <- (iv_id _ _ _ _ I)).
    destruct it; reflexivity.
  Qed.

  Lemma touched_known env id l s sk c r p : history env id l s -> inv id l s sk -> In (c, r) l ->
    In p (touched l c) -> In p (element_handles sk).
  Proof.
    intros H I Hin Hp. unfold touched in Hp. apply in_flat_map in Hp. destruct Hp as ([h t] & Hh & Hp). simpl in Hp.
    destruct (iv_known _ _ _ _ I _ _ Hin _ _ Hh) as [Kh _].
    destruct (parts_known _ _ _ _ _ _ H Hp) as [->|K]; [auto|]. eapply known_own; eauto.
  Qed.

  Lemma linked_joined env id l s sk p q : history env id l s -> inv id l s sk ->
    In p (element_handles sk) -> In q (element_handles sk) ->
    (linked (hyperedges (sys_graph s)) (eh_id p) (eh_id q) <-> joined l p q).
  Proof.
    intros H I Kp Kq. split.
    - intros L. remember (eh_id p) as a. remember (eh_id q) as b. revert p Kp Heqa.
      induction L as [a|a b c es Hes Ha Hb L IH]; intros p Kp Ea.
      + replace q with p by (eapply handle_eq; eauto; congruence). constructor.
      + apply In_nth_error in Hes. destruct Hes as [k Hk].
        assert (Lk : k < length (sk_relations sk)).
        { rewrite <- (m_gclen _ _ (iv_models _ _ _ _ I)). apply nth_error_lt in Hk.
          unfold hyperedges in Hk. now rewrite map_length in Hk. }
        assert (Kc : exists c0 kh, In (c0, RConstraint kh) l /\ ch_id kh = k).
        { destruct (nth_error_ex _ _ Lk) as [r Hr].
          assert (In (CHandle (sk_id sk) k (relation_tag r)) (constraint_handles sk)) as Kh
            by (apply in_constraint_handles; exists r; auto).
          rewrite <- (iv_ch _ _ _ _ I), in_created_constraints in Kh. apply in_map_iff in Kh.
          destruct Kh as ([c0 r0] & E & Kh). simpl in E. subst. eauto. }
        destruct Kc as (c0 & kh & Hin & Ek). subst k.
        rewrite (constraint_edge _ _ _ _ _ _ I Hin) in Hk. inversion Hk; subst es; clear Hk.
        apply in_map_iff in Ha, Hb. destruct Ha as (p' & Ep & Hp), Hb as (b' & Eb & Hb).
        assert (Kp' := touched_known _ _ _ _ _ _ _ _ H I Hin Hp).
        assert (Kb' := touched_known _ _ _ _ _ _ _ _ H I Hin Hb).
        assert (p' = p) by (eapply handle_eq; eauto; congruence). subst p'.
        eapply joined_step; [exact Hin|exact Hp|exact Hb|]. apply IH; auto.
    - intros J. clear Kp. induction J as [p|p q r c k Hin Hp Hq J IH]; [constructor|].
      eapply linked_step; [eapply nth_error_In, (constraint_edge _ _ _ _ _ _ I Hin)| | |].
      + apply in_map. exact Hp.
      + apply in_map. exact Hq.
      + auto.
  Qed.

  Lemma constrained_graph env id l s sk p : history env id l s -> inv id l s sk ->
    In p (element_handles sk) ->
    (is_constrained l p <-> nth_error (element_component (sys_graph s)) (eh_id p) <> Some None).
  Proof.
    intros H I Kp. assert (M := iv_models _ _ _ _ I). assert (W := m_graph _ _ M).
    assert (Lp : eh_id p < length (g_elements (sys_graph s))).
    { rewrite (m_glen _ _ M), <- (Forall2_length _ _ _ (m_items _ _ M)).
      apply in_element_handles in Kp. destruct Kp as (it & Hit & _). eapply nth_error_lt; eauto. }
    rewrite (wg_con _ W _ Lp). split.
    - intros (c & k & h & t & Hin & Hh & Hp).
      assert (E := constraint_edge _ _ _ _ _ _ I Hin). unfold hyperedges in E. rewrite nth_error_map in E.
      destruct (nth_error (g_constraints (sys_graph s)) (ch_id k)) as [gc|] eqn:Eg; [|discriminate].
      exists gc. split; [eapply nth_error_In; eauto|]. simpl in E. inversion E as [E']. rewrite E'.
      apply in_map. unfold touched. apply in_flat_map. exists (h, t). auto.
    - intros (gc & Hg & He). apply In_nth_error in Hg. destruct Hg as [k Hk].
      assert (Lk : k < length (sk_relations sk)).
      { rewrite <- (m_gclen _ _ (iv_models _ _ _ _ I)). eapply nth_error_lt; eauto. }
      destruct (nth_error_ex _ _ Lk) as [r Hr].
      assert (In (CHandle (sk_id sk) k (relation_tag r)) (constraint_handles sk)) as Kh
        by (apply in_constraint_handles; exists r; auto).
      rewrite <- (iv_ch _ _ _ _ I), in_created_constraints in Kh. apply in_map_iff in Kh.
      destruct Kh as ([c0 r0] & E & Kh). simpl in E. subst.
      assert (E := constraint_edge _ _ _ _ _ _ I Kh). simpl in E. unfold hyperedges in E.
      rewrite nth_error_map, Hk in E. simpl in E. inversion E as [E']. rewrite E' in He.
      apply in_map_iff in He. destruct He as (p' & Ep & Hp).
      assert (Kp' := touched_known _ _ _ _ _ _ _ _ H I Kh Hp).
      assert (p' = p) by (eapply handle_eq; eauto). subst p'.
      unfold touched in Hp. apply in_flat_map in Hp. destruct Hp as ([h t] & Hh & Hp). simpl in Hp.
      exists c0. eexists. exists h, t. eauto.
  Qed.

  (** What always holds *)
  Lemma groups_always env id l s : env_ok env -> history env id l s ->
    (forall p, In (RElement p) (map snd l) ->
       (is_constrained l p <-> exists g, in_group s g p)) /\
    (forall p g g', in_group s g p -> in_group s g' p -> g = g') /\
    (forall g e, holds_element (sys_graph s) g e ->
       exists p, In (RElement p) (map snd l) /\ eh_id p = e) /\
    (forall k, In (RConstraint k) (map snd l) -> exists g, con_in_group s g k) /\
    (forall k g g', con_in_group s g k -> con_in_group s g' k -> g = g') /\
    (forall p q g, In (RElement p) (map snd l) -> In (RElement q) (map snd l) ->
       in_group s g p -> in_group s g q -> joined l p q) /\
    (forall p c k q g, In (RElement p) (map snd l) -> In (c, RConstraint k) l -> In q (touched l c) ->
       in_group s g p -> con_in_group s g k -> joined l p q).
  Proof.
    intros EO H. destruct (history_inv _ _ _ _ EO H) as [sk I]. assert (M := iv_models _ _ _ _ I).
    assert (W := m_graph _ _ M). assert (P := wg_part _ W).
    assert (KE : forall p, In (RElement p) (map snd l) <-> In p (element_handles sk)).
    { intros p. now rewrite <- (iv_eh _ _ _ _ I), in_created_elements. }
    assert (Node : forall g p, in_group s g p ->
      node (hyperedges (sys_graph s)) (element_component (sys_graph s)) (components (sys_graph s)) g (eh_id p)).
    { intros g p (c & Hc & Hi). right. exists c. auto. }
    split.
    { intros p Kp. apply KE in Kp. rewrite (constrained_graph _ _ _ _ _ _ H I Kp).
      assert (Lp : eh_id p < length (element_component (sys_graph s))).
      { rewrite (wg_len _ W), (m_glen _ _ M), <- (Forall2_length _ _ _ (m_items _ _ M)).
        apply in_element_handles in Kp. destruct Kp as (it & Hit & _). eapply nth_error_lt; eauto. }
      destruct (nth_error_ex _ _ Lp) as [x Hx]. pose proof (p_cov _ _ _ _ P _ _ Hx) as Q. rewrite Hx.
      unfold in_group, holds_element. rewrite <- Q. split; congruence. }
    split.
    { intros p g g' (c & Hc & Hi) (c' & Hc' & Hi'). eapply (p_disj _ _ _ _ P); eauto. }
    split.
    { intros g e (c & Hc & Hi). assert (L := p_range _ _ _ _ P _ _ _ Hc Hi).
      rewrite (wg_len _ W), (m_glen _ _ M), <- (Forall2_length _ _ _ (m_items _ _ M)) in L.
      destruct (nth_error_ex _ _ L) as [it Hit].
      exists (EHandle (sk_id sk) e (item_tag it)). split; [|auto]. apply KE. apply in_element_handles. exists it. auto. }
    split.
    { intros k Kk. assert (K' := known_own_c _ _ _ _ _ I Kk). apply in_constraint_handles in K'.
      destruct K' as (r & Hr & _). apply nth_error_lt in Hr. rewrite <- (m_gclen _ _ M) in Hr.
      apply (p_ccov _ _ _ _ P) in Hr. destruct Hr as (g & c & H1 & H2). exists g, c. auto. }
    split.
    { intros k g g' (c & Hc & Hi) (c' & Hc' & Hi'). eapply (p_cdisj _ _ _ _ P); eauto. }
    split.
    { intros p q g Kp Kq Hp Hq. apply KE in Kp, Kq. apply (linked_joined _ _ _ _ _ _ _ H I Kp Kq).
      eapply (p_conn _ _ _ _ P); apply Node; eauto. }
    intros p c k q g Kp Hin Hq Hp (c0 & Hc0 & Hk). apply KE in Kp.
    assert (Kq := touched_known _ _ _ _ _ _ _ _ H I Hin Hq).
    apply (linked_joined _ _ _ _ _ _ _ H I Kp Kq).
    eapply (p_conn _ _ _ _ P); [apply Node; eauto|]. right. exists c0. split; [auto|]. right.
    exists (ch_id k), (map eh_id (touched l c)). split; [auto|]. split; [eapply constraint_edge; eauto|].
    now apply in_map.
  Qed.

  Lemma touched_old l c r c' : (forall h, r <> RElement h) -> touched ((c', r) :: l) c = touched l c.
  Proof.
    intros Nr. unfold touched. apply flat_map_ext. intros [h t]. simpl. apply parts_ret. auto.
  Qed.

  Lemma never_merges_closed env id l s : env_ok env -> history env id l s -> never_merges l ->
    closed (sys_graph s).
  Proof.
    intros EO H. induction H as [|l s c s' r H IH A Hs]; [intros _; apply closed_new|].
    intros T. destruct (history_inv _ _ _ _ EO H) as [sk I].
    assert (M := iv_models _ _ _ _ I). assert (G := step_graph _ _ _ _ _ _ EO M Hs).
    assert (T' : never_merges l) by (destruct r; simpl in T; tauto).
    specialize (IH T').
    assert (D : match r with RConstraint _ => True | _ => closed (sys_graph s') end).
    { destruct r; auto; destruct G as [->|[d ->]]; auto using closed_add_element. }
    destruct r; auto. clear D. destruct G as (v & els & G).
    eapply closed_add_constraint; [apply (m_graph _ _ M)|exact IH| |exact G].
    assert (W := m_graph _ _ M).
    assert (H' : history env id ((c, RConstraint h) :: l) s') by (econstructor; eauto).
    destruct (history_inv _ _ _ _ EO H') as [sk' I'].
    assert (E := constraint_edge _ _ _ _ _ _ I' (or_introl eq_refl)).
    rewrite touched_old in E by congruence.
    (* the new constraint is the last one *)
    assert (Eels : els = map eh_id (touched l c)).
    { assert (Hg : hyperedges (sys_graph s') = hyperedges (sys_graph s) ++ [els]).
      { unfold graph_add_constraint in G. apply obind_done in G. destruct G as (g1 & Hm & G).
        apply obind_done in G. destruct G as (es & _ & G). inversion G as [G']. unfold hyperedges. simpl.
        unfold merge_connected_components in Hm. apply obind_done in Hm. destruct Hm as ([b z] & _ & Hm).
        destruct (match b with Some ci => _ | None => _ end) as [t comps].
        apply obind_done in Hm. destruct Hm as (tc & _ & Hm). apply obind_done in Hm.
        destruct Hm as ([[ec cs] tc1] & _ & Hm). apply obind_done in Hm. destruct Hm as (cs2 & _ & Hm).
        inversion Hm; subst. simpl. now rewrite map_app. }
      assert (Ek : ch_id h = length (hyperedges (sys_graph s))).
      { destruct (inv_history_step _ _ _ _ _ _ _ _ EO I A Hs) as (sk2 & S2 & I2).
        pose proof (iv_ch _ _ _ _ I2) as C2. rewrite created_constraints_cons, (iv_ch _ _ _ _ I) in C2.
        unfold hyperedges. rewrite map_length, (m_gclen _ _ M).
        assert (N : nth_error (constraint_handles sk2) (length (sk_relations sk)) = Some h).
        { rewrite <- C2. rewrite nth_error_app2; unfold constraint_handles; rewrite map_length, seq_length; [|lia].
          now rewrite Nat.sub_diag. }
        unfold constraint_handles in N. rewrite nth_error_map, nth_error_seq in N.
        destruct (Nat.ltb _ _); [|discriminate]. simpl in N. inversion N. reflexivity. }
      rewrite Hg, Ek, nth_error_app_new in E. now inversion E. }
    assert (Kt : forall p, In p (touched l c) -> In p (element_handles sk)).
    { intros p Hp. unfold touched in Hp. apply in_flat_map in Hp. destruct Hp as ([h0 t] & Hh & Hp). simpl in Hp.
      destruct A as [A _]. destruct (A _ _ Hh) as [K _].
      destruct (parts_known _ _ _ _ _ _ H Hp) as [->|K']; eapply known_own; eauto. }
    intros e e' ci cj He He' Hc Hc'. rewrite Eels in He, He'. apply in_map_iff in He, He'.
    destruct He as (p & <- & Hp), He' as (q & <- & Hq).
    simpl in T. destruct T as [_ T]. specialize (T p q Hp Hq).
    assert (J : joined l p q).
    { apply T; apply (constrained_graph _ _ _ _ _ _ H I); auto; congruence. }
    apply (linked_joined _ _ _ _ _ _ _ H I) in J; auto.
    pose proof (closed_linked _ _ _ _ W IH J Hc) as Q. congruence.
  Qed.

  (** What holds when no constraint brings two groups together *)
  Lemma groups_exact env id l s : env_ok env -> history env id l s -> never_merges l ->
    (forall p q, In (RElement p) (map snd l) -> In (RElement q) (map snd l) -> is_constrained l p ->
       (joined l p q <-> exists g, in_group s g p /\ in_group s g q)) /\
    (forall c k p g, In (c, RConstraint k) l -> In p (touched l c) ->
       con_in_group s g k -> in_group s g p).
  Proof.
    intros EO H T. assert (C := never_merges_closed _ _ _ _ EO H T).
    destruct (groups_always _ _ _ _ EO H) as (A1 & A2 & A3 & A4 & A5 & A6 & A7).
    destruct (history_inv _ _ _ _ EO H) as [sk I]. assert (M := iv_models _ _ _ _ I).
    assert (W := m_graph _ _ M). split.
    - intros p q Kp Kq Cp. split; [|intros (g & G1 & G2); eauto].
      intros J. apply (A1 _ Kp) in Cp. destruct Cp as [g Hg]. exists g. split; [auto|].
      unfold in_group in *. rewrite closed_holds in * by auto.
      eapply closed_linked; eauto. apply (linked_joined _ _ _ _ _ p q H I); auto; eapply known_own; eauto.
    - intros c k p g Hin Hp Hg. unfold in_group. rewrite closed_holds by auto.
      eapply (cl_con _ C); [exact Hg|eapply constraint_edge; eauto|now apply in_map].
  Qed.
End History.
