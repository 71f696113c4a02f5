(** Refinement between the program's system (ModelSystem) and the abstract
    sketch (Spec_Sketch): the relation [models] and its preservation by every
    call other than [Solve] (that one is in [Proofs_Solve.v]). *)
From Coq Require Import List Arith NArith ZArith Lia Bool.
From Verif Require Import Num Outcome Lib ModelExpr ModelGraph ModelSystem ModelSolve
  ModelNumerical ModelApi Spec_Sketch Spec_Graph Proofs_Graph.
Import ListNotations.

(** Variable that stores a coordinate *)
Definition addr (els : list encoded_element) (c : coord) : option nat :=
  match nth_error els (fst c), snd c with
  | Some (ELength a), 0 => Some a
  | Some (EPoint a), 0 => Some a
  | Some (EPoint a), 1 => Some (S a)
  | _, _ => None
  end.
Definition pt_at (els : list encoded_element) (i : nat) : option nat :=
  match nth_error els i with Some (EPoint a) => Some a | _ => None end.
Definition len_at (els : list encoded_element) (i : nat) : option nat :=
  match nth_error els i with Some (ELength a) => Some a | _ => None end.
Definition line_at (els : list encoded_element) (i : nat) : option (nat * nat) :=
  match nth_error els i with Some (ELine a b) => Some (a, b) | _ => None end.
Definition circle_at (els : list encoded_element) (i : nat) : option (nat * nat) :=
  match nth_error els i with Some (ECircle a b) => Some (a, b) | _ => None end.

Notation "'do' x <- m ; k" :=
  (match m with Some x => k | None => None end)
  (at level 200, x pattern, right associativity).

Section Refine.
  Context {F : Type} {NF : Num F}.
  Implicit Types (s : system F) (sk : sketch F).

  Definition item_rep (els : list encoded_element) (it : item F) (e : encoded_element) : Prop :=
    match it, e with
    | ILength _, ELength _ | IPoint _ _, EPoint _ => True
    | ILine p q, ELine a b => pt_at els p = Some a /\ pt_at els q = Some b
    | ICircle c r, ECircle a b => pt_at els c = Some a /\ len_at els r = Some b
    | _, _ => False
    end.

  Definition compile (els : list encoded_element) (r : relation F) : option (list (expr F)) :=
    match r with
    | Coincide p q =>
        do a <- pt_at els p; do b <- pt_at els q;
        Some [VariableVariableEquality a b; VariableVariableEquality (S a) (S b)]
    | Distance p q d =>
        do a <- pt_at els p; do b <- pt_at els q; Some [PointPointDistance a b d]
    | Angle p q r x =>
        do a <- pt_at els p; do b <- pt_at els q; do c <- pt_at els r;
        Some [PointPointPointAngle a b c x]
    | OnLine p l =>
        do a <- pt_at els p; do (b, c) <- line_at els l; Some [PointLineIncidence a b c]
    | LineDistance p l d =>
        do a <- pt_at els p; do (b, c) <- line_at els l; Some [PointLineDistance a b c d]
    | OnCircle p c =>
        do a <- pt_at els p; do (b, r) <- circle_at els c; Some [PointCircleIncidence a b r]
    | SameLength p q r t =>
        do a <- pt_at els p; do b <- pt_at els q; do c <- pt_at els r; do d <- pt_at els t;
        Some [SegmentSegmentLengthEquality a b c d]
    | LineAngle k l x =>
        do (a, b) <- line_at els k; do (c, d) <- line_at els l; Some [LineLineAngle a b c d x]
    | Parallel k l =>
        do (a, b) <- line_at els k; do (c, d) <- line_at els l; Some [LineLineParallelism a b c d]
    | Perpendicular k l =>
        do (a, b) <- line_at els k; do (c, d) <- line_at els l;
        Some [LineLinePerpendicularity a b c d]
    | Tangent l c =>
        do (a, b) <- line_at els l; do (o, r) <- circle_at els c; Some [LineCircleTangency a b o r]
    end.

  (** Points and lengths a relation is about, in the order the program lists them *)
  Definition ends (items : list (item F)) (i : nat) : list nat :=
    match nth_error items i with
    | Some (ILine p q) => [p; q]
    | Some (ICircle c r) => [c; r]
    | _ => [i]
    end.
  Definition prims (items : list (item F)) (r : relation F) : list nat :=
    flat_map (ends items) (relation_items r).

  Record models (s : system F) (sk : sketch F) : Prop := {
    m_id : sys_id s = sk_id sk;
    m_items : Forall2 (item_rep (sys_elements s)) (sk_items sk) (sys_elements s);
    m_value : forall c v, addr (sys_elements s) c = Some v ->
      v < length (sys_variables s) /\ nth_error (sys_variables s) v = coord_value sk c;
    m_prim : forall c v, addr (sys_elements s) c = Some v ->
      nth_error (sys_variable_to_primitive s) v = Some (fst c);
    m_surj : forall v, v < length (sys_variables s) ->
      exists c, addr (sys_elements s) c = Some v;
    m_plen : length (sys_variable_to_primitive s) = length (sys_variables s);
    m_fixed : forall c v, addr (sys_elements s) c = Some v ->
      (In v (sys_fixed s) <-> In c (sk_fixed sk));
    m_fixed_range : forall v, In v (sys_fixed s) -> v < length (sys_variables s);
    m_fixed_coord : forall c, In c (sk_fixed sk) -> exists v, addr (sys_elements s) c = Some v;
    m_clen : length (sys_constraints s) = length (sk_relations sk);
    m_rel : forall i r, nth_error (sk_relations sk) i = Some r ->
      exists idx es,
        nth_error (sys_constraints s) i = Some (EncodedConstraint (relation_tag r) idx) /\
        compile (sys_elements s) r = Some es /\
        forall k e, nth_error es k = Some e ->
          nth_error (sys_expressions s) (idx + k) = Some e /\
          nth_error (sys_expression_to_constraint s) (idx + k) = Some i;
    m_expr : forall j e, nth_error (sys_expressions s) j = Some e ->
      exists i r idx es k, nth_error (sk_relations sk) i = Some r /\
        nth_error (sys_constraints s) i = Some (EncodedConstraint (relation_tag r) idx) /\
        compile (sys_elements s) r = Some es /\ nth_error es k = Some e /\ j = idx + k;
    m_e2c : length (sys_expression_to_constraint s) = length (sys_expressions s);
    m_eqv : length (eq_variables (sys_eqgraph s)) = length (sys_variables s);
    m_eqe : eq_expressions (sys_eqgraph s) = map variable_indices (sys_expressions s);
    m_eqin : forall v l, nth_error (eq_variables (sys_eqgraph s)) v = Some l ->
      forall j, In j l <-> exists e, nth_error (sys_expressions s) j = Some e /\
                                     In v (variable_indices e);
    m_graph : wf_graph (sys_graph s);
    m_glen : length (g_elements (sys_graph s)) = length (sys_elements s);
    m_gclen : length (g_constraints (sys_graph s)) = length (sk_relations sk);
    m_ginc : forall i r gc, nth_error (sk_relations sk) i = Some r ->
      nth_error (g_constraints (sys_graph s)) i = Some gc ->
      incident_elements gc = prims (sk_items sk) r
  }.

  (** ** The storage *)
  Lemma models_new id : models (system_new id) (sketch_new id).
  Proof.
    assert (A : forall c, addr [] c = None) by (intros [[|i] k]; reflexivity).
    assert (B : forall (T : Type) i, nth_error (@nil T) i = None) by (intros T [|i]; reflexivity).
    constructor; simpl; auto; try (intros; rewrite ?A, ?B in *; discriminate); try (intros; lia);
      try (intros; contradiction).
    apply wf_graph_new.
  Qed.

  Lemma addr_inj els (v2p : list nat) c c' v :
    (forall c v, addr els c = Some v -> nth_error v2p v = Some (fst c)) ->
    addr els c = Some v -> addr els c' = Some v -> c = c'.
  Proof.
    intros Hp H H'. pose proof (Hp _ _ H) as P. pose proof (Hp _ _ H') as P'.
    destruct c as [i k], c' as [i' k']; simpl in *.
    assert (i = i') by congruence. subst i'. f_equal.
    unfold addr in *; simpl in *. destruct (nth_error els i) as [[a|a|a b|a b]|]; try discriminate.
    - destruct k, k'; try discriminate; auto.
    - destruct k as [|[|]], k' as [|[|]]; try discriminate; auto;
        injection H; injection H'; lia.
  Qed.

  Lemma pt_at_item s sk i a : models s sk -> pt_at (sys_elements s) i = Some a ->
    exists x y, nth_error (sk_items sk) i = Some (IPoint x y) /\
      nth_error (sys_variables s) a = Some x /\ nth_error (sys_variables s) (S a) = Some y /\
      nth_error (sys_variable_to_primitive s) a = Some i /\
      nth_error (sys_variable_to_primitive s) (S a) = Some i.
  Proof.
    intros M H. unfold pt_at in H.
    destruct (nth_error (sys_elements s) i) as [[b|b|b c|b c]|] eqn:E; try discriminate.
    injection H; intros ->.
    pose proof (m_items _ _ M) as HF.
    assert (Hlt := nth_error_lt _ _ _ E).
    assert (Hl : length (sk_items sk) = length (sys_elements s)) by (eapply Forall2_length; eauto).
    destruct (nth_error_ex (sk_items sk) i) as [it Hit]; [lia|].
    assert (A0 : addr (sys_elements s) (i, 0) = Some a) by (unfold addr; simpl; now rewrite E).
    assert (A1 : addr (sys_elements s) (i, 1) = Some (S a)) by (unfold addr; simpl; now rewrite E).
    destruct (m_value _ _ M _ _ A0) as [_ V0]. destruct (m_value _ _ M _ _ A1) as [L1 V1].
    apply (m_prim _ _ M) in A0, A1.
    unfold coord_value in V0, V1; cbn [fst snd] in V0, V1, A0, A1. rewrite Hit in V0, V1.
    assert (Hx : exists x, nth_error (sys_variables s) (S a) = Some x) by (apply nth_error_ex; auto).
    destruct Hx as [y Hy]. rewrite Hy in V1.
    destruct it; try discriminate. exists x, y0. repeat split; auto. congruence.
  Qed.
  Lemma len_at_item s sk i a : models s sk -> len_at (sys_elements s) i = Some a ->
    exists x, nth_error (sk_items sk) i = Some (ILength x) /\
      nth_error (sys_variables s) a = Some x /\
      nth_error (sys_variable_to_primitive s) a = Some i.
  Proof.
    intros M H. unfold len_at in H.
    destruct (nth_error (sys_elements s) i) as [[b|b|b c|b c]|] eqn:E; try discriminate.
    injection H; intros ->.
    pose proof (m_items _ _ M) as HF.
    assert (Hlt := nth_error_lt _ _ _ E).
    assert (Hl : length (sk_items sk) = length (sys_elements s)) by (eapply Forall2_length; eauto).
    destruct (nth_error_ex (sk_items sk) i) as [it Hit]; [lia|].
    assert (A0 : addr (sys_elements s) (i, 0) = Some a) by (unfold addr; simpl; now rewrite E).
    destruct (m_value _ _ M _ _ A0) as [L0 V0].
    apply (m_prim _ _ M) in A0.
    unfold coord_value in V0; cbn [fst snd] in V0, A0. rewrite Hit in V0.
    (* the element is a length, so the item is *)
    assert (R : item_rep (sys_elements s) it (ELength a)).
    { eapply Forall2_nth; eauto. }
    destruct it; simpl in R; try contradiction. exists l. auto.
  Qed.
  Lemma item_rep_nth s sk i it : models s sk -> nth_error (sk_items sk) i = Some it ->
    exists e, nth_error (sys_elements s) i = Some e /\ item_rep (sys_elements s) it e.
  Proof.
    intros M H. pose proof (m_items _ _ M) as HF. pose proof (Forall2_length _ _ _ HF).
    destruct (nth_error_ex (sys_elements s) i) as [e He].
    { apply nth_error_lt in H. lia. }
    exists e. split; auto. eapply Forall2_nth; eauto.
  Qed.
  Lemma elem_nth s sk i e : models s sk -> nth_error (sys_elements s) i = Some e ->
    exists it, nth_error (sk_items sk) i = Some it /\ item_rep (sys_elements s) it e.
  Proof.
    intros M H. pose proof (m_items _ _ M) as HF. pose proof (Forall2_length _ _ _ HF).
    destruct (nth_error_ex (sk_items sk) i) as [it Hit].
    { apply nth_error_lt in H. lia. }
    exists it. split; auto. eapply Forall2_nth; eauto.
  Qed.
  Lemma items_length s sk : models s sk -> length (sk_items sk) = length (sys_elements s).
  Proof. intros M. eapply Forall2_length. apply (m_items _ _ M). Qed.

  Lemma has_tag_spec s sk t i : models s sk ->
    (has_tag sk t i = true <-> exists e, nth_error (sys_elements s) i = Some e /\ element_tag_of e = t).
  Proof.
    intros M. unfold has_tag. split.
    - destruct (nth_error (sk_items sk) i) as [it|] eqn:E; [|discriminate].
      destruct (item_rep_nth _ _ _ _ M E) as (e & He & R).
      intros H. exists e. split; auto.
      destruct it, t, e; simpl in *; try discriminate; try contradiction; auto.
    - intros (e & He & Ht). destruct (elem_nth _ _ _ _ M He) as (it & Hit & R).
      rewrite Hit. destruct it, e; simpl in *; try contradiction; subst t; auto.
  Qed.
  Lemma has_tag_pt s sk i : models s sk ->
    (has_tag sk TPoint i = true <-> exists a, pt_at (sys_elements s) i = Some a).
  Proof.
    intros M. rewrite (has_tag_spec s) by auto. unfold pt_at. split.
    - intros (e & -> & Ht). destruct e; try discriminate; eauto.
    - intros (a & H). destruct (nth_error (sys_elements s) i) as [[]|]; try discriminate; eauto.
  Qed.
  Lemma has_tag_len s sk i : models s sk ->
    (has_tag sk TLength i = true <-> exists a, len_at (sys_elements s) i = Some a).
  Proof.
    intros M. rewrite (has_tag_spec s) by auto. unfold len_at. split.
    - intros (e & -> & Ht). destruct e; try discriminate; eauto.
    - intros (a & H). destruct (nth_error (sys_elements s) i) as [[]|]; try discriminate; eauto.
  Qed.
  Lemma has_tag_line s sk i : models s sk ->
    (has_tag sk TLine i = true <-> exists a, line_at (sys_elements s) i = Some a).
  Proof.
    intros M. rewrite (has_tag_spec s) by auto. unfold line_at. split.
    - intros (e & -> & Ht). destruct e; try discriminate; eauto.
    - intros (a & H). destruct (nth_error (sys_elements s) i) as [[]|]; try discriminate; eauto.
  Qed.
  Lemma has_tag_circle s sk i : models s sk ->
    (has_tag sk TCircle i = true <-> exists a, circle_at (sys_elements s) i = Some a).
  Proof.
    intros M. rewrite (has_tag_spec s) by auto. unfold circle_at. split.
    - intros (e & -> & Ht). destruct e; try discriminate; eauto.
    - intros (a & H). destruct (nth_error (sys_elements s) i) as [[]|]; try discriminate; eauto.
  Qed.

  Lemma line_at_item s sk i a b : models s sk -> line_at (sys_elements s) i = Some (a, b) ->
    exists p q, nth_error (sk_items sk) i = Some (ILine p q) /\
      pt_at (sys_elements s) p = Some a /\ pt_at (sys_elements s) q = Some b.
  Proof.
    intros M H. unfold line_at in H.
    destruct (nth_error (sys_elements s) i) as [[]|] eqn:E; try discriminate.
    injection H; intros -> ->. destruct (elem_nth _ _ _ _ M E) as (it & Hit & R).
    destruct it; simpl in R; try contradiction. destruct R. eauto.
  Qed.
  Lemma circle_at_item s sk i a b : models s sk -> circle_at (sys_elements s) i = Some (a, b) ->
    exists p q, nth_error (sk_items sk) i = Some (ICircle p q) /\
      pt_at (sys_elements s) p = Some a /\ len_at (sys_elements s) q = Some b.
  Proof.
    intros M H. unfold circle_at in H.
    destruct (nth_error (sys_elements s) i) as [[]|] eqn:E; try discriminate.
    injection H; intros -> ->. destruct (elem_nth _ _ _ _ M E) as (it & Hit & R).
    destruct it; simpl in R; try contradiction. destruct R. eauto.
  Qed.

  (** ** Growing the element list *)
  Lemma pt_at_app els x i a : pt_at els i = Some a -> pt_at (els ++ [x]) i = Some a.
  Proof.
    unfold pt_at. destruct (nth_error els i) eqn:E; [|discriminate].
    now rewrite (nth_error_app_old _ _ _ _ E).
  Qed.
  Lemma len_at_app els x i a : len_at els i = Some a -> len_at (els ++ [x]) i = Some a.
  Proof.
    unfold len_at. destruct (nth_error els i) eqn:E; [|discriminate].
    now rewrite (nth_error_app_old _ _ _ _ E).
  Qed.
  Lemma line_at_app els x i a : line_at els i = Some a -> line_at (els ++ [x]) i = Some a.
  Proof.
    unfold line_at. destruct (nth_error els i) eqn:E; [|discriminate].
    now rewrite (nth_error_app_old _ _ _ _ E).
  Qed.
  Lemma circle_at_app els x i a : circle_at els i = Some a -> circle_at (els ++ [x]) i = Some a.
  Proof.
    unfold circle_at. destruct (nth_error els i) eqn:E; [|discriminate].
    now rewrite (nth_error_app_old _ _ _ _ E).
  Qed.
  Lemma compile_app els x r es : compile els r = Some es -> compile (els ++ [x]) r = Some es.
  Proof.
    destruct r; simpl;
    repeat match goal with
    | |- match pt_at els ?p with _ => _ end = _ -> _ =>
        let E := fresh in destruct (pt_at els p) eqn:E; [|discriminate];
        rewrite (pt_at_app _ x _ _ E)
    | |- match line_at els ?p with _ => _ end = _ -> _ =>
        let E := fresh in destruct (line_at els p) as [[? ?]|] eqn:E; [|discriminate];
        rewrite (line_at_app _ x _ _ E)
    | |- match circle_at els ?p with _ => _ end = _ -> _ =>
        let E := fresh in destruct (circle_at els p) as [[? ?]|] eqn:E; [|discriminate];
        rewrite (circle_at_app _ x _ _ E)
    end; auto.
  Qed.
  Lemma item_rep_app els x it e : item_rep els it e -> item_rep (els ++ [x]) it e.
  Proof.
    destruct it, e; simpl; auto; intros [H1 H2]; split;
      auto using pt_at_app, len_at_app.
  Qed.
  Lemma addr_app els x c v : addr (els ++ [x]) c = Some v ->
    addr els c = Some v \/ (fst c = length els /\ addr [x] (0, snd c) = Some v).
  Proof.
    unfold addr. destruct c as [i k]; simpl.
    destruct (nth_error (els ++ [x]) i) eqn:E; [|discriminate].
    apply nth_error_snoc in E. destruct E as [[_ E]|[-> ->]].
    - rewrite E. auto.
    - intros H. right. auto.
  Qed.
  Lemma addr_app_old els x c v : addr els c = Some v -> addr (els ++ [x]) c = Some v.
  Proof.
    unfold addr. destruct (nth_error els (fst c)) eqn:E; [|discriminate].
    now rewrite (nth_error_app_old _ _ _ _ E).
  Qed.
  Lemma coord_value_app id id' (items : list (item F)) x rel rel' fx fx' c y :
    coord_value (Sketch id items rel fx) c = Some y ->
    coord_value (Sketch id' (items ++ [x]) rel' fx') c = Some y.
  Proof.
    unfold coord_value; simpl. destruct (nth_error items (fst c)) eqn:E; [|discriminate].
    now rewrite (nth_error_app_old _ _ _ _ E).
  Qed.

  (** The new element [e] stores its values [vals] at [base ..]. *)
  Definition new_item (els : list encoded_element) (base : nat) (it : item F)
      (vals : list F) (e : encoded_element) : Prop :=
    item_rep els it e /\
    match it, e with
    | ILength l, ELength a => a = base /\ vals = [l]
    | IPoint x y, EPoint a => a = base /\ vals = [x; y]
    | ILine _ _, ELine _ _ | ICircle _ _, ECircle _ _ => vals = []
    | _, _ => False
    end.

  Lemma new_item_addr els base it vals e k v :
    new_item els base it vals e -> addr [e] (0, k) = Some v ->
    v = base + k /\ k < length vals /\ nth_error vals k = coord_value (Sketch 0%N [it] [] []) (0, k).
  Proof.
    intros [_ H] Ha. unfold addr in Ha; simpl in Ha. unfold coord_value; simpl.
    destruct e, it; try contradiction; try discriminate.
    - destruct H as [-> ->]. destruct k; [|discriminate]. injection Ha; intros <-.
      simpl. repeat split; auto; lia.
    - destruct H as [-> ->]. destruct k as [|[|]]; try discriminate; injection Ha; intros <-; simpl;
        repeat split; auto; lia.
  Qed.
  Lemma new_item_surj els base it vals e k :
    new_item els base it vals e -> k < length vals -> addr [e] (0, k) = Some (base + k).
  Proof.
    intros [_ H] Hk. unfold addr; simpl.
    destruct e, it; try contradiction.
    - destruct H as [-> ->]. simpl in Hk. destruct k; [|lia]. f_equal; lia.
    - destruct H as [-> ->]. simpl in Hk. destruct k as [|[|]]; [| |lia]; f_equal; lia.
    - subst vals; simpl in Hk; lia.
    - subst vals; simpl in Hk; lia.
  Qed.

  Lemma ends_app (items : list (item F)) x i : i < length items ->
    ends (items ++ [x]) i = ends items i.
  Proof. intros H. unfold ends. rewrite nth_error_app1 by auto. auto. Qed.

  Lemma compile_range els r es i : compile els r = Some es -> In i (relation_items r) ->
    i < length els.
  Proof.
    assert (P : forall i a, pt_at els i = Some a -> i < length els).
    { intros j a H. unfold pt_at in H. destruct (nth_error els j) eqn:E; [|discriminate].
      eapply nth_error_lt; eauto. }
    assert (L : forall i a, line_at els i = Some a -> i < length els).
    { intros j a H. unfold line_at in H. destruct (nth_error els j) eqn:E; [|discriminate].
      eapply nth_error_lt; eauto. }
    assert (C : forall i a, circle_at els i = Some a -> i < length els).
    { intros j a H. unfold circle_at in H. destruct (nth_error els j) eqn:E; [|discriminate].
      eapply nth_error_lt; eauto. }
    destruct r; simpl;
    repeat match goal with
    | |- match pt_at els ?p with _ => _ end = _ -> _ =>
        let E := fresh in destruct (pt_at els p) eqn:E; [|discriminate]; apply P in E
    | |- match line_at els ?p with _ => _ end = _ -> _ =>
        let E := fresh in destruct (line_at els p) as [[? ?]|] eqn:E; [|discriminate]; apply L in E
    | |- match circle_at els ?p with _ => _ end = _ -> _ =>
        let E := fresh in destruct (circle_at els p) as [[? ?]|] eqn:E; [|discriminate]; apply C in E
    end; intros _; intuition subst; auto.
  Qed.

  Lemma prims_app s sk x i r : models s sk -> nth_error (sk_relations sk) i = Some r ->
    prims (sk_items sk ++ [x]) r = prims (sk_items sk) r.
  Proof.
    intros M H. destruct (m_rel _ _ M _ _ H) as (idx & es & _ & Hc & _).
    unfold prims. assert (G : forall j, In j (relation_items r) -> j < length (sk_items sk)).
    { intros j Hj. rewrite (items_length _ _ M). eapply compile_range; eauto. }
    clear -G. induction (relation_items r) as [|j l IH]; simpl; auto.
    rewrite ends_app by (apply G; simpl; auto). f_equal. apply IH. intros; apply G; simpl; auto.
  Qed.

  Lemma in_pt v a : In v (pt a) <-> v = a \/ v = S a.
  Proof. unfold pt; simpl. intuition. Qed.

  Lemma expr_vars_range s sk j e v : models s sk ->
    nth_error (sys_expressions s) j = Some e -> In v (variable_indices e) ->
    v < length (sys_variables s).
  Proof.
    intros M He Hv.
    destruct (m_expr _ _ M _ _ He) as (i & r & idx & es & k & H1 & H2 & H3 & H4 & H5).
    assert (P : forall i a, pt_at (sys_elements s) i = Some a -> S a < length (sys_variables s)).
    { intros q a Hq. destruct (pt_at_item _ _ _ _ M Hq) as (x & y & _ & _ & Hy & _).
      eapply nth_error_lt; eauto. }
    assert (Q : forall i a, len_at (sys_elements s) i = Some a -> a < length (sys_variables s)).
    { intros q a Hq. destruct (len_at_item _ _ _ _ M Hq) as (x & _ & Hy & _).
      eapply nth_error_lt; eauto. }
    apply nth_error_In in H4.
    destruct r; simpl in H3;
    repeat match goal with
    | H : match pt_at ?els ?p with _ => _ end = _ |- _ =>
        let E := fresh in destruct (pt_at els p) eqn:E; [|discriminate]; apply P in E
    | H : match line_at ?els ?p with _ => _ end = _ |- _ =>
        let E := fresh in destruct (line_at els p) as [[? ?]|] eqn:E; [|discriminate];
        apply (line_at_item _ _ _ _ _ M) in E; destruct E as (? & ? & _ & E & ?);
        apply P in E
    | H : match circle_at ?els ?p with _ => _ end = _ |- _ =>
        let E := fresh in destruct (circle_at els p) as [[? ?]|] eqn:E; [|discriminate];
        apply (circle_at_item _ _ _ _ _ M) in E; destruct E as (? & ? & _ & E & ?);
        apply P in E
    | H : pt_at _ _ = Some _ |- _ => apply P in H
    | H : len_at _ _ = Some _ |- _ => apply Q in H
    end; injection H3; clear H3; intros <-; simpl in H4; intuition subst e; simpl in Hv;
    intuition subst; lia.
  Qed.

  Lemma add_element_models s sk tag vals enc it s' h :
    models s sk ->
    new_item (sys_elements s) (length (sys_variables s)) it vals
             (enc (length (sys_variables s))) ->
    add_element tag vals enc s = Done (s', h) ->
    models s' (Sketch (sk_id sk) (sk_items sk ++ [it]) (sk_relations sk) (sk_fixed sk)) /\
    h = EHandle (sk_id sk) (length (sk_items sk)) tag.
  Proof.
    intros M N H. unfold add_element in H. odone.
    pose proof (items_length _ _ M) as HL.
    pose (b := length (sys_variables s)). fold b in N.
    assert (Hnaddr : forall c v, addr (sys_elements s ++ [enc b]) c = Some v ->
              addr (sys_elements s) c = Some v \/
              (fst c = length (sys_elements s) /\ v = b + snd c /\ snd c < length vals /\
               nth_error vals (snd c) = coord_value (Sketch 0%N [it] [] []) (0, snd c))).
    { intros c v Hc. apply addr_app in Hc. destruct Hc as [Hc|[Hc1 Hc2]]; auto.
      right. destruct (new_item_addr _ _ _ _ _ _ _ N Hc2) as (? & ? & ?). auto. }
    split; [|rewrite (m_id _ _ M); f_equal; auto].
    constructor; simpl.
    - apply (m_id _ _ M).
    - apply Forall2_app.
      + eapply Forall2_impl; [|apply (m_items _ _ M)]. intros; now apply item_rep_app.
      + constructor; [|constructor]. apply item_rep_app. apply N.
    - intros c v Hc. fold b in Hc. apply Hnaddr in Hc. rewrite app_length.
      destruct Hc as [Hc|(Hc1 & -> & Hc3 & Hc4)].
      + destruct (m_value _ _ M _ _ Hc) as [V1 V2]. split; [lia|].
        rewrite nth_error_app1 by auto. rewrite V2.
        destruct (nth_error_ex _ _ V1) as [y Hy]. rewrite V2 in Hy. rewrite Hy. symmetry.
        destruct sk; simpl. eapply coord_value_app; eauto.
      + fold b. split; [lia|]. rewrite nth_error_app2 by (fold b; lia).
        replace (b + snd c - length (sys_variables s)) with (snd c) by (fold b; lia).
        rewrite Hc4. unfold coord_value; simpl. rewrite Hc1, <- HL, nth_error_app_new. auto.
    - intros c v Hc. fold b in Hc. apply Hnaddr in Hc.
      destruct Hc as [Hc|(Hc1 & -> & Hc3 & Hc4)].
      + apply nth_error_app_old. now apply (m_prim _ _ M).
      + rewrite nth_error_app2 by (rewrite (m_plen _ _ M); fold b; lia).
        rewrite (m_plen _ _ M). fold b. replace (b + snd c - b) with (snd c) by lia.
        rewrite nth_error_repeat. destruct (Nat.ltb_spec (snd c) (length vals)); [|lia].
        now rewrite Hc1.
    - intros v Hv. rewrite app_length in Hv. fold b. destruct (Nat.lt_ge_cases v b) as [Hlt|Hge].
      + destruct (m_surj _ _ M v Hlt) as [c Hc]. exists c. now apply addr_app_old.
      + fold b in Hv. exists (length (sys_elements s), v - b).
        pose proof (new_item_surj _ _ _ _ _ (v - b) N) as Hs.
        unfold addr; simpl. rewrite nth_error_app_new.
        unfold addr in Hs; simpl in Hs. replace (b + (v - b)) with v in Hs by lia. apply Hs. lia.
    - rewrite !app_length, repeat_length, (m_plen _ _ M). auto.
    - intros c v Hc. fold b in Hc. apply Hnaddr in Hc.
      destruct Hc as [Hc|(Hc1 & -> & Hc3 & Hc4)].
      + now apply (m_fixed _ _ M).
      + split; intros Hin.
        * apply (m_fixed_range _ _ M) in Hin. fold b in Hin. lia.
        * destruct (m_fixed_coord _ _ M _ Hin) as [w Hw]. unfold addr in Hw.
          rewrite Hc1 in Hw.
          assert (E : nth_error (sys_elements s) (length (sys_elements s)) = None)
            by (apply nth_error_None; auto).
          rewrite E in Hw. discriminate.
    - intros v Hv. rewrite app_length. apply (m_fixed_range _ _ M) in Hv. lia.
    - intros c Hc. destruct (m_fixed_coord _ _ M _ Hc) as [v Hv].
      exists v. now apply addr_app_old.
    - apply (m_clen _ _ M).
    - intros i r Hr. destruct (m_rel _ _ M _ _ Hr) as (idx & es & Q1 & Q2 & Q3).
      exists idx, es. split; auto. split; auto. now apply compile_app.
    - intros j e Hj. destruct (m_expr _ _ M _ _ Hj) as (i & r & idx & es & k & Q1 & Q2 & Q3 & Q4 & Q5).
      exists i, r, idx, es, k. repeat split; auto. now apply compile_app.
    - apply (m_e2c _ _ M).
    - rewrite !app_length, repeat_length, (m_eqv _ _ M). auto.
    - apply (m_eqe _ _ M).
    - intros v l Hl j. destruct (Nat.lt_ge_cases v b) as [Hlt|Hge].
      + rewrite nth_error_app1 in Hl by (rewrite (m_eqv _ _ M); auto). now apply (m_eqin _ _ M).
      + rewrite nth_error_app2 in Hl by (rewrite (m_eqv _ _ M); auto).
        rewrite nth_error_repeat in Hl. destruct (_ <? _); [|discriminate].
        injection Hl; intros <-. split; [contradiction|].
        intros (e & He & Hin). pose proof (expr_vars_range _ _ _ _ _ M He Hin). lia.
    - apply wf_graph_add_element, (m_graph _ _ M).
    - rewrite !app_length, (m_glen _ _ M). auto.
    - apply (m_gclen _ _ M).
    - intros i r gc Hr Hgc. erewrite prims_app by eauto. eapply (m_ginc _ _ M); eauto.
  Qed.

  (** ** The equation graph *)
  Lemma insert_expression_spec vars g g' :
    insert_expression vars g = Done g' ->
    eq_expressions g' = eq_expressions g ++ [vars] /\
    length (eq_variables g') = length (eq_variables g) /\
    (forall v, In v vars -> v < length (eq_variables g)) /\
    forall v l', nth_error (eq_variables g') v = Some l' ->
      exists l, nth_error (eq_variables g) v = Some l /\
        forall j, In j l' <-> In j l \/ (j = length (eq_expressions g) /\ In v vars).
  Proof.
    unfold insert_expression. intros H. apply obind_done in H. destruct H as (vs & Hl & H).
    injection H; clear H; intros <-. simpl.
    set (id := length (eq_expressions g)) in *.
    split; auto.
    set (I := fun (pre : list nat) (vs : list (list nat)) =>
      length vs = length (eq_variables g) /\
      (forall v, In v pre -> v < length (eq_variables g)) /\
      forall v l', nth_error vs v = Some l' ->
        exists l, nth_error (eq_variables g) v = Some l /\
          forall j, In j l' <-> In j l \/ (j = id /\ In v pre)).
    assert (HI : I vars vs).
    { eapply (ofold_inv_prefix I); [| |exact Hl].
      - intros pre a post t t' Hv (I1 & I2 & I3) Hstep.
        odone. apply oset_done in Hstep. destruct Hstep as [Hlt ->].
        unfold I. rewrite lset_length. split; auto. split.
        { intros v Hin. apply in_app_iff in Hin. destruct Hin as [Hin|[<-|[]]]; auto. lia. }
        intros v l' Hv'. rewrite nth_error_lset in Hv'.
        destruct (Nat.eqb_spec a v) as [<-|Hne].
        + destruct (Nat.ltb_spec a (length t)); [|lia]. injection Hv'; intros <-.
          destruct (I3 _ _ Ha) as (l & Hl1 & Hl2). exists l. split; auto.
          intros j. rewrite in_app_iff, Hl2, in_app_iff. simpl. intuition.
        + destruct (I3 _ _ Hv') as (l & Hl1 & Hl2). exists l. split; auto.
          intros j. rewrite Hl2, in_app_iff. simpl. intuition.
      - unfold I. split; auto. split; [intros v []|]. intros v l' H. exists l'. split; auto.
        intros j. simpl. intuition. }
    apply HI.
  Qed.
  Lemma insert_expression_ok vars g :
    (forall v, In v vars -> v < length (eq_variables g)) ->
    exists g', insert_expression vars g = Done g'.
  Proof.
    intros H. unfold insert_expression.
    destruct (ofold_ok (fun vs : list (list nat) => length vs = length (eq_variables g))
      (fun vs v => let! es := oget vs v in oset vs v (es ++ [length (eq_expressions g)])) vars)
      with (s := eq_variables g) as (r & Hr & _); auto.
    - intros t v Hv Ht. destruct (oget_ok t v) as [es Hes]; [rewrite Ht; auto|].
      rewrite Hes; simpl. rewrite oset_ok by (rewrite Ht; auto).
      eexists; split; eauto. now rewrite lset_length.
    - rewrite Hr; simpl; eauto.
  Qed.

  (** ** Adding the expressions of a constraint *)
  Lemma push_expressions_spec id es : forall s s',
    push_expressions id es s = Done s' ->
    exists eg,
      s' = System (sys_id s) (sys_graph s) eg (sys_elements s) (sys_variables s)
             (sys_variables_transformed s) (sys_variable_to_primitive s)
             (sys_fixed s) (sys_constraints s) (sys_expressions s ++ es)
             (sys_expressions_transformed s)
             (sys_expression_to_constraint s ++ repeat id (length es)) /\
      eq_expressions eg = eq_expressions (sys_eqgraph s) ++ map variable_indices es /\
      length (eq_variables eg) = length (eq_variables (sys_eqgraph s)) /\
      forall v l', nth_error (eq_variables eg) v = Some l' ->
        exists l, nth_error (eq_variables (sys_eqgraph s)) v = Some l /\
          forall j, In j l' <-> In j l \/
            exists k e, nth_error es k = Some e /\ In v (variable_indices e) /\
                        j = length (eq_expressions (sys_eqgraph s)) + k.
  Proof.
    unfold push_expressions. induction es as [|e es IH]; simpl; intros s s' H.
    - injection H; intros <-. exists (sys_eqgraph s). rewrite !app_nil_r.
      split; [destruct s; auto|]. repeat split; auto.
      intros v l' Hl. exists l'. split; auto. intros j. split; auto.
      intros [Hj|(k & x & Hk & _)]; auto. destruct k; discriminate.
    - apply obind_done in H. destruct H as (s1 & H1 & H).
      apply obind_done in H1. destruct H1 as (eg1 & Hins & H1).
      injection H1; clear H1; intros <-.
      apply insert_expression_spec in Hins. destruct Hins as (E1 & E2 & _ & E3).
      apply IH in H. destruct H as (eg & -> & G1 & G2 & G3). simpl in *.
      exists eg. split.
      { f_equal; rewrite <- app_assoc; auto. }
      split.
      { rewrite G1, E1, <- app_assoc. auto. }
      split; [congruence|].
      intros v l' Hl. destruct (G3 _ _ Hl) as (l1 & Hl1 & M1).
      destruct (E3 _ _ Hl1) as (l & Hl0 & M0). exists l. split; auto.
      intros j. rewrite M1, M0, E1, app_length. simpl. split.
      + intros [[Hj|[-> Hv]]|(k & x & Hk & Hx & ->)]; auto.
        * right. exists 0, e. simpl. repeat split; auto.
        * right. exists (S k), x. simpl. repeat split; auto. lia.
      + intros [Hj|(k & x & Hk & Hx & ->)]; auto. destruct k; simpl in Hk.
        * injection Hk; intros ->. left. right. auto.
        * right. exists k, x. repeat split; auto. lia.
  Qed.
  Lemma push_expressions_ok id es : forall s,
    (forall e v, In e es -> In v (variable_indices e) -> v < length (eq_variables (sys_eqgraph s))) ->
    exists s', push_expressions id es s = Done s'.
  Proof.
    unfold push_expressions. induction es as [|e es IH]; simpl; intros s H; eauto.
    destruct (insert_expression_ok (variable_indices e) (sys_eqgraph s)) as [g Hg].
    { intros v Hv. eapply H; eauto. }
    rewrite Hg; simpl. apply IH. simpl. intros x v Hx Hv.
    apply insert_expression_spec in Hg. destruct Hg as (_ & -> & _). eauto.
  Qed.

  (** Creating a relation, in one shape for all eleven kinds *)
  Definition create_relation s sk (r : relation F) : outcome (system F * chandle) :=
    match compile (sys_elements s) r with
    | Some es =>
        let! s1 := with_graph_constraint (tag_valency (relation_tag r))
                     (prims (sk_items sk) r) s in
        add_constraint (relation_tag r) es s1
    | None => Panic
    end.

  Lemma point_idx_eq s h : point_idx s h =
    match pt_at (sys_elements s) (eh_id h) with Some a => Done a | None => Panic end.
  Proof.
    unfold point_idx, pt_at, oget. destruct (nth_error (sys_elements s) (eh_id h)) as [[]|]; auto.
  Qed.
  Lemma length_idx_eq s h : length_idx s h =
    match len_at (sys_elements s) (eh_id h) with Some a => Done a | None => Panic end.
  Proof.
    unfold length_idx, len_at, oget. destruct (nth_error (sys_elements s) (eh_id h)) as [[]|]; auto.
  Qed.
  Lemma line_idx_eq s h : line_idx s h =
    match line_at (sys_elements s) (eh_id h) with Some a => Done a | None => Panic end.
  Proof.
    unfold line_idx, line_at, oget. destruct (nth_error (sys_elements s) (eh_id h)) as [[]|]; auto.
  Qed.
  Lemma circle_idx_eq s h : circle_idx s h =
    match circle_at (sys_elements s) (eh_id h) with Some a => Done a | None => Panic end.
  Proof.
    unfold circle_idx, circle_at, oget. destruct (nth_error (sys_elements s) (eh_id h)) as [[]|]; auto.
  Qed.

  Ltac prim_tac M :=
    repeat match goal with
    | |- context [point_idx ?s ?h] => rewrite (point_idx_eq s h)
    | |- context [line_idx ?s ?h] => rewrite (line_idx_eq s h)
    | |- context [circle_idx ?s ?h] => rewrite (circle_idx_eq s h)
    | |- context [match pt_at ?els ?p with _ => _ end] =>
        let E := fresh "E" in destruct (pt_at els p) eqn:E; simpl; [|reflexivity];
        let x := fresh "x" in let y := fresh "y" in let I := fresh "I" in let P := fresh "P" in
        destruct (pt_at_item _ _ _ _ M E) as (x & y & I & _ & _ & P & _)
    | |- context [match line_at ?els ?p with _ => _ end] =>
        let E := fresh "E" in destruct (line_at els p) as [[? ?]|] eqn:E; simpl; [|reflexivity];
        let p := fresh "p" in let q := fresh "q" in let I := fresh "I" in
        let A := fresh "A" in let B := fresh "B" in
        destruct (line_at_item _ _ _ _ _ M E) as (p & q & I & A & B);
        apply (pt_at_item _ _ _ _ M) in A; destruct A as (? & ? & _ & _ & _ & A & _);
        apply (pt_at_item _ _ _ _ M) in B; destruct B as (? & ? & _ & _ & _ & B & _)
    | |- context [match circle_at ?els ?p with _ => _ end] =>
        let E := fresh "E" in destruct (circle_at els p) as [[? ?]|] eqn:E; simpl; [|reflexivity];
        let p := fresh "p" in let q := fresh "q" in let I := fresh "I" in
        let A := fresh "A" in let B := fresh "B" in
        destruct (circle_at_item _ _ _ _ _ M E) as (p & q & I & A & B);
        apply (pt_at_item _ _ _ _ M) in A; destruct A as (? & ? & _ & _ & _ & A & _);
        apply (len_at_item _ _ _ _ M) in B; destruct B as (? & _ & _ & B)
    end;
    unfold primitive, oget, prims, ends; simpl;
    repeat match goal with
    | H : nth_error ?l ?i = Some _ |- context [nth_error ?l ?i] => rewrite H; simpl
    end; try reflexivity.

  Lemma coincidence_create_eq s sk p q : models s sk ->
    coincidence_create p q s = create_relation s sk (Coincide (eh_id p) (eh_id q)).
  Proof. intros M. unfold coincidence_create, create_relation; simpl. prim_tac M. Qed.
  Lemma ppd_create_eq s sk p q d : models s sk ->
    ppd_create p q d s = create_relation s sk (Distance (eh_id p) (eh_id q) d).
  Proof. intros M. unfold ppd_create, create_relation; simpl. prim_tac M. Qed.
  Lemma pppa_create_eq s sk p q r a : models s sk ->
    pppa_create p q r a s = create_relation s sk (Angle (eh_id p) (eh_id q) (eh_id r) a).
  Proof. intros M. unfold pppa_create, create_relation; simpl. prim_tac M. Qed.
  Lemma pli_create_eq s sk p l : models s sk ->
    pli_create p l s = create_relation s sk (OnLine (eh_id p) (eh_id l)).
  Proof. intros M. unfold pli_create, create_relation; simpl. prim_tac M. Qed.
  Lemma pld_create_eq s sk p l d : models s sk ->
    pld_create p l d s = create_relation s sk (LineDistance (eh_id p) (eh_id l) d).
  Proof. intros M. unfold pld_create, create_relation; simpl. prim_tac M. Qed.
  Lemma pci_create_eq s sk p c : models s sk ->
    pci_create p c s = create_relation s sk (OnCircle (eh_id p) (eh_id c)).
  Proof. intros M. unfold pci_create, create_relation; simpl. prim_tac M. Qed.
  Lemma ssle_create_eq s sk a b c d : models s sk ->
    ssle_create a b c d s =
    create_relation s sk (SameLength (eh_id a) (eh_id b) (eh_id c) (eh_id d)).
  Proof. intros M. unfold ssle_create, create_relation; simpl. prim_tac M. Qed.
  Lemma lla_create_eq s sk k l a : models s sk ->
    lla_create k l a s = create_relation s sk (LineAngle (eh_id k) (eh_id l) a).
  Proof. intros M. unfold lla_create, line_line_create, create_relation; simpl. prim_tac M. Qed.
  Lemma llp_create_eq s sk k l : models s sk ->
    llp_create k l s = create_relation s sk (Parallel (eh_id k) (eh_id l)).
  Proof. intros M. unfold llp_create, line_line_create, create_relation; simpl. prim_tac M. Qed.
  Lemma llperp_create_eq s sk k l : models s sk ->
    llperp_create k l s = create_relation s sk (Perpendicular (eh_id k) (eh_id l)).
  Proof. intros M. unfold llperp_create, line_line_create, create_relation; simpl. prim_tac M. Qed.
  Lemma lct_create_eq s sk l c : models s sk ->
    lct_create l c s = create_relation s sk (Tangent (eh_id l) (eh_id c)).
  Proof. intros M. unfold lct_create, create_relation; simpl. prim_tac M. Qed.

  Lemma relation_ok_compile s sk r : models s sk ->
    (relation_ok sk r = true <-> exists es, compile (sys_elements s) r = Some es).
  Proof.
    intros M.
    assert (P : forall i, has_tag sk TPoint i = match pt_at (sys_elements s) i with Some _ => true | None => false end).
    { intros i. apply eq_true_iff_eq. rewrite (has_tag_pt s) by auto.
      destruct (pt_at (sys_elements s) i); split; intros H; eauto; try discriminate.
      destruct H; discriminate. }
    assert (L : forall i, has_tag sk TLine i = match line_at (sys_elements s) i with Some _ => true | None => false end).
    { intros i. apply eq_true_iff_eq. rewrite (has_tag_line s) by auto.
      destruct (line_at (sys_elements s) i); split; intros H; eauto; try discriminate.
      destruct H; discriminate. }
    assert (C : forall i, has_tag sk TCircle i = match circle_at (sys_elements s) i with Some _ => true | None => false end).
    { intros i. apply eq_true_iff_eq. rewrite (has_tag_circle s) by auto.
      destruct (circle_at (sys_elements s) i); split; intros H; eauto; try discriminate.
      destruct H; discriminate. }
    destruct r; unfold relation_ok, compile; rewrite ?P, ?L, ?C;
    repeat match goal with
    | |- context [match pt_at ?els ?p with _ => _ end] => destruct (pt_at els p); simpl
    | |- context [match line_at ?els ?p with _ => _ end] => destruct (line_at els p) as [[? ?]|]; simpl
    | |- context [match circle_at ?els ?p with _ => _ end] => destruct (circle_at els p) as [[? ?]|]; simpl
    end; split; intros H; eauto; try discriminate; try (destruct H; discriminate).
  Qed.

  Lemma prims_range s sk r es : models s sk -> compile (sys_elements s) r = Some es ->
    prims (sk_items sk) r <> [] /\
    forall e, In e (prims (sk_items sk) r) -> e < length (sys_elements s).
  Proof.
    intros M Hc.
    assert (G : forall i, In i (relation_items r) -> ends (sk_items sk) i <> [] /\
              forall e, In e (ends (sk_items sk) i) -> e < length (sys_elements s)).
    { intros i Hi. pose proof (compile_range _ _ _ _ Hc Hi) as Hlt.
      unfold ends. destruct (nth_error (sk_items sk) i) as [[]|] eqn:E.
      - split; [easy|]. simpl. intros e' [<-|[]]; auto.
      - split; [easy|]. simpl. intros e' [<-|[]]; auto.
      - destruct (item_rep_nth _ _ _ _ M E) as (e & He & R). destruct e; simpl in R; try contradiction.
        destruct R as [R1 R2]. unfold pt_at in *.
        destruct (nth_error (sys_elements s) p) eqn:E1; [|discriminate].
        destruct (nth_error (sys_elements s) q) eqn:E2; [|discriminate].
        apply nth_error_lt in E1, E2. split; [easy|]. simpl. intros e' [<-|[<-|[]]]; auto.
      - destruct (item_rep_nth _ _ _ _ M E) as (e & He & R). destruct e; simpl in R; try contradiction.
        destruct R as [R1 R2]. unfold pt_at, len_at in *.
        destruct (nth_error (sys_elements s) c) eqn:E1; [|discriminate].
        destruct (nth_error (sys_elements s) r0) eqn:E2; [|discriminate].
        apply nth_error_lt in E1, E2. split; [easy|]. simpl. intros e' [<-|[<-|[]]]; auto.
      - split; [easy|]. simpl. intros e' [<-|[]]; auto. }
    unfold prims. split.
    - assert (Hne : exists i l, relation_items r = i :: l) by (destruct r; simpl; eauto).
      destruct Hne as (i & l & E). rewrite E in *. simpl.
      destruct (G i) as [Gi _]; [simpl; auto|].
      destruct (ends (sk_items sk) i); [congruence|]. easy.
    - intros e He. apply in_flat_map in He. destruct He as (i & Hi & He).
      eapply G; eauto.
  Qed.

  Lemma compile_length els (r : relation F) es :
    compile els r = Some es -> length es = tag_valency (relation_tag r).
  Proof.
    destruct r; simpl;
    repeat match goal with
    | |- match ?x with _ => _ end = _ -> _ => destruct x; try discriminate
    end; intros H; injection H; intros <-; reflexivity.
  Qed.

  Lemma compile_vars s sk r es e v : models s sk -> compile (sys_elements s) r = Some es ->
    In e es -> In v (variable_indices e) -> v < length (sys_variables s).
  Proof.
    intros M H3 H4 Hv.
    assert (P : forall i a, pt_at (sys_elements s) i = Some a -> S a < length (sys_variables s)).
    { intros q a Hq. destruct (pt_at_item _ _ _ _ M Hq) as (x & y & _ & _ & Hy & _).
      eapply nth_error_lt; eauto. }
    assert (Q : forall i a, len_at (sys_elements s) i = Some a -> a < length (sys_variables s)).
    { intros q a Hq. destruct (len_at_item _ _ _ _ M Hq) as (x & _ & Hy & _).
      eapply nth_error_lt; eauto. }
    destruct r; simpl in H3;
    repeat match goal with
    | H : match pt_at ?els ?p with _ => _ end = _ |- _ =>
        let E := fresh in destruct (pt_at els p) eqn:E; [|discriminate]; apply P in E
    | H : match line_at ?els ?p with _ => _ end = _ |- _ =>
        let E := fresh in destruct (line_at els p) as [[? ?]|] eqn:E; [|discriminate];
        apply (line_at_item _ _ _ _ _ M) in E; destruct E as (? & ? & _ & E & ?);
        apply P in E
    | H : match circle_at ?els ?p with _ => _ end = _ |- _ =>
        let E := fresh in destruct (circle_at els p) as [[? ?]|] eqn:E; [|discriminate];
        apply (circle_at_item _ _ _ _ _ M) in E; destruct E as (? & ? & _ & E & ?);
        apply P in E
    | H : pt_at _ _ = Some _ |- _ => apply P in H
    | H : len_at _ _ = Some _ |- _ => apply Q in H
    end; injection H3; clear H3; intros <-; simpl in H4; intuition subst e; simpl in Hv;
    intuition subst; lia.
  Qed.

  Lemma create_relation_models s sk r s' h : models s sk ->
    create_relation s sk r = Done (s', h) ->
    add_relation r sk =
      Some (Sketch (sk_id sk) (sk_items sk) (sk_relations sk ++ [r]) (sk_fixed sk),
            RConstraint h) /\
    models s' (Sketch (sk_id sk) (sk_items sk) (sk_relations sk ++ [r]) (sk_fixed sk)).
  Proof.
    intros M H. unfold create_relation in H.
    destruct (compile (sys_elements s) r) as [es|] eqn:Hc; [|discriminate].
    apply obind_done in H. destruct H as (s1 & Hg & H).
    unfold with_graph_constraint in Hg. apply obind_done in Hg. destruct Hg as (g & Hg & E).
    injection E; clear E; intros <-.
    unfold add_constraint in H; simpl in H. apply obind_done in H. destruct H as (id & Hid & H).
    apply to_u32_done in Hid. destruct Hid as [-> Hid].
    apply obind_done in H. destruct H as (idx & Hidx & H).
    apply to_u32_done in Hidx. destruct Hidx as [-> Hidx].
    apply obind_done in H. destruct H as (s2 & Hp & H). injection H; clear H; intros <- <-.
    apply push_expressions_spec in Hp. simpl in Hp. destruct Hp as (eg & -> & G1 & G2 & G3).
    destruct (prims_range _ _ _ _ M Hc) as [Pne Prange].
    destruct (wf_graph_add_constraint _ _ _ _ Pne (m_graph _ _ M) Hg) as (W1 & W2 & W3 & W4).
    split.
    { unfold add_relation. assert (Hok : relation_ok sk r = true).
      { apply (relation_ok_compile s); eauto. }
      rewrite Hok. rewrite (m_id _ _ M), (m_clen _ _ M). auto. }
    assert (Hlen : length (sys_expressions s) = length (eq_expressions (sys_eqgraph s))).
    { rewrite (m_eqe _ _ M), map_length. auto. }
    constructor; simpl.
    - apply (m_id _ _ M).
    - apply (m_items _ _ M).
    - apply (m_value _ _ M).
    - apply (m_prim _ _ M).
    - apply (m_surj _ _ M).
    - apply (m_plen _ _ M).
    - apply (m_fixed _ _ M).
    - apply (m_fixed_range _ _ M).
    - apply (m_fixed_coord _ _ M).
    - rewrite !app_length, (m_clen _ _ M). auto.
    - intros i r' Hr. apply nth_error_snoc in Hr. destruct Hr as [[_ Hr]|[-> ->]].
      + destruct (m_rel _ _ M _ _ Hr) as (idx & es' & Q1 & Q2 & Q3).
        exists idx, es'. split; [now apply nth_error_app_old|]. split; auto.
        intros k e Hk. destruct (Q3 _ _ Hk). split; now apply nth_error_app_old.
      + exists (length (sys_expressions s)), es. split.
        { rewrite <- (m_clen _ _ M). apply nth_error_app_new. }
        split; auto. intros k e Hk. split.
        * rewrite nth_error_app2 by lia.
          now replace (length (sys_expressions s) + k - length (sys_expressions s)) with k by lia.
        * rewrite nth_error_app2 by (rewrite (m_e2c _ _ M); lia). rewrite (m_e2c _ _ M).
          replace (length (sys_expressions s) + k - length (sys_expressions s)) with k by lia.
          rewrite nth_error_repeat. apply nth_error_lt in Hk.
          destruct (Nat.ltb_spec k (length es)); [|lia]. now rewrite (m_clen _ _ M).
    - intros j e Hj. destruct (Nat.lt_ge_cases j (length (sys_expressions s))) as [Hlt|Hge].
      + rewrite nth_error_app1 in Hj by auto.
        destruct (m_expr _ _ M _ _ Hj) as (i & r' & idx & es' & k & Q1 & Q2 & Q3 & Q4 & Q5).
        exists i, r', idx, es', k. repeat split; auto; now apply nth_error_app_old.
      + rewrite nth_error_app2 in Hj by auto.
        exists (length (sk_relations sk)), r, (length (sys_expressions s)), es,
          (j - length (sys_expressions s)).
        split; [apply nth_error_app_new|]. split.
        { rewrite <- (m_clen _ _ M). apply nth_error_app_new. }
        repeat split; auto. lia.
    - rewrite !app_length, repeat_length, (m_e2c _ _ M). auto.
    - rewrite G2, (m_eqv _ _ M). auto.
    - rewrite G1, (m_eqe _ _ M), map_app. auto.
    - intros v l' Hl j. destruct (G3 _ _ Hl) as (l & Hl0 & HM). rewrite HM.
      rewrite (m_eqin _ _ M _ _ Hl0 j). split.
      + intros [(e & He & Hv)|(k & e & Hk & Hv & ->)].
        * exists e. split; auto. now apply nth_error_app_old.
        * exists e. split; auto. rewrite <- Hlen. rewrite nth_error_app2 by lia.
          now replace (length (sys_expressions s) + k - length (sys_expressions s)) with k by lia.
      + intros (e & He & Hv). destruct (Nat.lt_ge_cases j (length (sys_expressions s))) as [Hlt|Hge].
        * rewrite nth_error_app1 in He by auto. left; eauto.
        * rewrite nth_error_app2 in He by auto. right.
          exists (j - length (sys_expressions s)), e. repeat split; auto. lia.
    - exact W1.
    - rewrite W3. apply (m_glen _ _ M).
    - rewrite W2, !app_length, (m_gclen _ _ M). auto.
    - intros i r' gc Hr Hgc. rewrite W2 in Hgc.
      apply nth_error_snoc in Hr. apply nth_error_snoc in Hgc.
      destruct Hr as [[Hi Hr]|[-> ->]]; destruct Hgc as [[Hi' Hgc]|[Hi' ->]].
      + eapply (m_ginc _ _ M); eauto.
      + rewrite (m_gclen _ _ M) in Hi'. lia.
      + rewrite (m_gclen _ _ M) in Hi'. lia.
      + auto.
  Qed.

  Lemma create_relation_ok s sk r : models s sk -> relation_ok sk r = true ->
    (N.of_nat (length (sys_constraints s)) < 2 ^ 32)%N ->
    (N.of_nat (length (sys_expressions s)) < 2 ^ 32)%N ->
    exists s' h, create_relation s sk r = Done (s', h).
  Proof.
    intros M Hok R1 R2. apply (relation_ok_compile _ _ _ M) in Hok. destruct Hok as [es Hc].
    destruct (prims_range _ _ _ _ M Hc) as [Pne Prange].
    unfold create_relation. rewrite Hc. unfold with_graph_constraint.
    destruct (graph_add_constraint_ok (tag_valency (relation_tag r)) (prims (sk_items sk) r)
       (sys_graph s) (m_graph _ _ M)) as [g Hg].
    { intros e He. rewrite (m_glen _ _ M). auto. }
    rewrite Hg; simpl. unfold add_constraint; simpl.
    rewrite to_u32_ok by auto; simpl. rewrite to_u32_ok by auto; simpl.
    match goal with |- context [push_expressions ?i ?e ?t] =>
      destruct (push_expressions_ok i e t) as [s2 Hs2] end.
    { simpl. intros e v He Hv. rewrite (m_eqv _ _ M). eapply compile_vars; eauto. }
    rewrite Hs2; simpl. eauto.
  Qed.
End Refine.
