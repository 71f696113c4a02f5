(** [solve] writes only free coordinates of constrained elements, keeps the
    refinement relation, and does not panic. *)
From Coq Require Import List Arith NArith ZArith Lia Bool Permutation.
From Verif Require Import Num Outcome Lib ModelExpr ModelGraph ModelSystem ModelMatching ModelSolve
  ModelNumerical ModelApi Spec_Sketch Spec_Graph Spec_Scc Spec_Matching Spec_Groups Spec_Solver
  Proofs_Graph Proofs_System Proofs_Calls Proofs_Analyze Proofs_Matching Proofs_Scc Proofs_Groups.
Import ListNotations.

(** ** No panic *)
Lemma obind_nopanic {A B} (m : outcome A) (k : A -> outcome B) :
  m <> Panic -> (forall a, m = Done a -> k a <> Panic) -> obind m k <> Panic.
Proof. destruct m; simpl; intros; auto; discriminate. Qed.
Lemma done_nopanic {A} (a : A) : Done a <> Panic.
Proof. discriminate. Qed.
Lemma ofold_nopanic {A S} (P : S -> Prop) (f : S -> A -> outcome S) l :
  (forall a s, In a l -> P s -> f s a <> Panic /\ forall s', f s a = Done s' -> P s') ->
  forall s, P s -> ofold f l s <> Panic.
Proof.
  induction l as [|a l IH]; simpl; intros Hf s H; [discriminate|].
  destruct (Hf a s) as [H1 H2]; auto. apply obind_nopanic; auto.
Qed.

(** ** Writing back *)
Section Write.
  Context {F : Type} {NF : Num F}.
  Implicit Types vs vt : list F.

  Lemma write_spec (w : F -> F) (values : list F) : forall free k vs vs',
    ofold (fun vs '(i, v) => let! x := oget values i in oset vs v (w x))
      (combine (seq k (length free)) free) vs = Done vs' ->
    length vs' = length vs /\
    (forall v, ~ In v free -> nth_error vs' v = nth_error vs v) /\
    (NoDup free -> forall i v, nth_error free i = Some v ->
       exists x, nth_error values (k + i) = Some x /\ nth_error vs' v = Some (w x)).
  Proof.
    induction free as [|v free IH]; intros k vs vs' H.
    - simpl in H. inversion H; subst. split; auto. split; auto. intros _ [|i] v; discriminate.
    - cbn [length seq combine ofold] in H. apply obind_done in H. destruct H as (vs1 & H1 & H2).
      apply obind_done in H1. destruct H1 as (x & Hx & H1). apply oget_done in Hx.
      apply oset_done in H1. destruct H1 as [Hlt ->].
      apply IH in H2. destruct H2 as (L & U & W). rewrite lset_length in L. split; auto. split.
      + intros u Hu. simpl in Hu. rewrite U by tauto. rewrite nth_error_lset_ne; auto. 
      + intros N i u Hi. apply NoDup_cons_iff in N. destruct N as [Nv N]. destruct i as [|i]; simpl in Hi.
        * inversion Hi; subst. exists x. rewrite Nat.add_0_r. split; auto.
          rewrite U by auto. now rewrite nth_error_lset_eq.
        * destruct (W N i u Hi) as (x' & Hx' & Hu). exists x'. split; auto.
          rewrite <- Hx'. f_equal. lia.
  Qed.
  Lemma write_ok (w : F -> F) (values : list F) : forall free k vs,
    (forall v, In v free -> v < length vs) -> k + length free <= length values ->
    exists vs', ofold (fun vs '(i, v) => let! x := oget values i in oset vs v (w x))
      (combine (seq k (length free)) free) vs = Done vs'.
  Proof.
    induction free as [|v free IH]; intros k vs Hr Hl; [simpl; eauto|].
    cbn [length seq combine ofold]. simpl in Hl. destruct (oget_ok values k) as [x Hx]; [lia|].
    rewrite Hx. cbn [obind]. rewrite oset_ok by (apply Hr; simpl; auto). cbn [obind].
    apply IH; [|lia]. intros u Hu. rewrite lset_length. apply Hr. simpl; auto.
  Qed.

  Lemma index_set_nodup l : NoDup l -> index_set l = l.
  Proof.
    unfold index_set. intros N.
    assert (G : forall acc, NoDup (acc ++ l) ->
      fold_left (fun acc x => if existsb (Nat.eqb x) acc then acc else acc ++ [x]) l acc = acc ++ l).
    { clear N. induction l as [|x l IH]; simpl; intros acc N; [now rewrite app_nil_r|].
      destruct (existsb (Nat.eqb x) acc) eqn:E.
      - exfalso. apply existsb_eqb in E. eapply nodup_app_disj; eauto. simpl; auto.
      - rewrite IH; [now rewrite <- app_assoc|]. now rewrite <- app_assoc. }
    apply (G []). auto.
  Qed.

  Lemma perturb_spec free : forall rng vt rng' vt',
    perturb_variables free rng vt = Done (rng', vt') ->
    length vt' = length vt /\ forall v, ~ In v free -> nth_error vt' v = nth_error vt v.
  Proof.
    unfold perturb_variables. induction free as [|v free IH]; intros rng vt rng' vt' H.
    - simpl in H. inversion H; subst; auto.
    - cbn [ofold] in H. apply obind_done in H. destruct H as ([rng1 vt1] & H1 & H2).
      apply obind_done in H1. destruct H1 as (x & Hx & H1).
      destruct (next_f64 rng) as [r1 n1]. destruct (next_f64 r1) as [r2 n2].
      apply obind_done in H1. destruct H1 as (vt2 & H1 & H3). inversion H3; subst.
      apply oset_done in H1. destruct H1 as [Hlt ->]. apply IH in H2. destruct H2 as [L U].
      rewrite lset_length in L. split; auto. intros u Hu. simpl in Hu. rewrite U by tauto.
      rewrite nth_error_lset_ne; auto.
  Qed.
  Lemma perturb_ok free : forall rng vt, (forall v, In v free -> v < length vt) ->
    exists p, perturb_variables free rng vt = Done p.
  Proof.
    unfold perturb_variables. induction free as [|v free IH]; intros rng vt H; [simpl; eauto|].
    cbn [ofold]. destruct (oget_ok vt v) as [x Hx]; [apply H; simpl; auto|]. rewrite Hx. cbn [obind].
    destruct (next_f64 rng) as [r1 n1]. destruct (next_f64 r1) as [r2 n2].
    rewrite oset_ok by (apply H; simpl; auto). cbn [obind]. apply IH.
    intros u Hu. rewrite lset_length. apply H; simpl; auto.
  Qed.
End Write.

Section Solve.
  Context {F : Type} {NF : Num F}.
  Implicit Types (s : system F) (sk : sketch F) (env : solver_env F).

  Lemma component_free_spec s es free : component_free_variables s es = Done free ->
    NoDup free /\ forall v, In v free <->
      exists id e, In id es /\ nth_error (sys_elements s) id = Some e /\
        In v (element_variables e) /\ ~ In v (sys_fixed s).
  Proof.
    intros H. unfold component_free_variables in H.
    match type of H with ofold ?f _ _ = _ =>
      pose proof (ofold_inv_prefix (fun pre acc => ssorted acc /\ forall v, In v acc <->
      exists id e, In id pre /\ nth_error (sys_elements s) id = Some e /\
        In v (element_variables e) /\ ~ In v (sys_fixed s)) f es) as G end.
    destruct (G) with (s := @nil nat) (s' := free) as [HS HI]; auto.
    - intros pre id post acc acc' _ [HS HI] Hst. apply obind_done in Hst.
      destruct Hst as (e & He & Hst). apply oget_done in He. inversion Hst; subst.
      split; [now apply ssorted_extend|]. intros v. rewrite in_set_extend, HI, filter_In, negb_true_iff.
      rewrite existsb_eqb_false. split.
      + intros [(id' & e' & Hid & Q)|[Q1 Q2]].
        * exists id', e'. split; auto. apply in_app_iff; auto.
        * exists id, e. split; [apply in_app_iff; simpl; auto|]. auto.
      + intros (id' & e' & Hid & Q1 & Q2 & Q3). apply in_app_iff in Hid. destruct Hid as [Hid|[<-|[]]].
        * left. exists id', e'. auto.
        * right. rewrite He in Q1. inversion Q1; subst. auto.
    - split; [constructor|]. intros v. split; [intros []|intros (? & ? & [] & _)].
    - split; auto. now apply ssorted_nodup.
  Qed.
  Lemma component_free_ok s es : (forall id, In id es -> id < length (sys_elements s)) ->
    exists free, component_free_variables s es = Done free.
  Proof.
    intros H. unfold component_free_variables.
    destruct (ofold_ok (fun _ => True) (fun acc id =>
      let! e := oget (sys_elements s) id in
      Done (set_extend acc
        (filter (fun v => negb (existsb (Nat.eqb v) (sys_fixed s)))
                (element_variables e)))) es) with (s := @nil nat) as (free & Hf & _); eauto.
    intros acc id Hid _. destruct (oget_ok (sys_elements s) id) as [e He]; auto.
    rewrite He. simpl. eauto.
  Qed.

  (** ** The frame of [solve] *)
  Definition writable s (v : nat) : Prop :=
    exists c id e, In c (components (sys_graph s)) /\ In id (c_elements c) /\
      nth_error (sys_elements s) id = Some e /\ In v (element_variables e) /\ ~ In v (sys_fixed s).

  (** A coordinate of an element of a component, fixed or not *)
  Definition inside s (v : nat) : Prop :=
    exists c id e, In c (components (sys_graph s)) /\ In id (c_elements c) /\
      nth_error (sys_elements s) id = Some e /\ In v (element_variables e).

  (** [s'] is [s] with other coordinates, equal except where [W] allows *)
  Definition rewritten (W : nat -> Prop) s s' : Prop :=
    exists vs vt, s' = with_values vs vt s /\ length vs = length (sys_variables s) /\
      length vt = length (sys_variables_transformed s) /\
      forall v, ~ W v -> nth_error vs v = nth_error (sys_variables s) v.

  Lemma rewritten_refl W s : rewritten W s s.
  Proof. exists (sys_variables s), (sys_variables_transformed s). destruct s. simpl. auto. Qed.
  Lemma rewritten_trans W s1 s2 s3 : rewritten W s1 s2 -> rewritten W s2 s3 -> rewritten W s1 s3.
  Proof.
    intros (vs & vt & -> & L1 & L2 & H) (vs' & vt' & -> & L3 & L4 & H').
    exists vs', vt'. unfold with_values in *; simpl in *. split; auto. split; [congruence|].
    split; [congruence|]. intros v Hv. rewrite H' by auto. auto.
  Qed.
  Lemma rewritten_writable W s s' v : rewritten W s s' -> (writable s' v <-> writable s v).
  Proof. intros (vs & vt & -> & _). reflexivity. Qed.

  (** The equation graph of a system is consistent *)
  Definition eq_ok s : Prop :=
    length (eq_variables (sys_eqgraph s)) = length (sys_variables s) /\
    forall v l, nth_error (eq_variables (sys_eqgraph s)) v = Some l ->
      forall e, In e l <-> mentions (eq_expressions (sys_eqgraph s)) e v.
  Lemma models_eq_ok s sk : models s sk -> eq_ok s.
  Proof.
    intros M. split; [apply (m_eqv _ _ M)|]. intros v l Hl e. rewrite (m_eqin _ _ M _ _ Hl).
    unfold mentions. rewrite (m_eqe _ _ M). split.
    - intros (x & Hx & Hv). exists (variable_indices x). rewrite nth_error_map, Hx. auto.
    - intros (vs & Hvs & Hv). rewrite nth_error_map in Hvs.
      destruct (nth_error (sys_expressions s) e) as [x|]; [|discriminate]. inversion Hvs; subst. eauto.
  Qed.
  Lemma rewritten_eq_ok W s s' : rewritten W s s' -> eq_ok s -> eq_ok s'.
  Proof. intros (vs & vt & -> & L & _) [H1 H2]. split; simpl; [congruence|auto]. Qed.

  Lemma solve_none_sound env opt scale free cs s s' : NoDup free ->
    solve_none env opt scale free cs s = Done s' ->
    rewritten (fun v => In v free) s s'.
  Proof.
    intros N H. unfold solve_none in H.
    apply obind_done in H. destruct H as (values & Hv & H).
    apply obind_done in H. destruct H as (es & He & H).
    apply obind_done in H. destruct H as (values' & Ho & H).
    apply obind_done in H. destruct H as (vs & Hw & H). inversion H; subst.
    unfold write_back in Hw. simpl in Hw. rewrite index_set_nodup in Hw by auto.
    apply (write_spec (fun x => nmul scale x)) in Hw. destruct Hw as (L & U & _).
    exists vs, (sys_variables_transformed s). auto.
  Qed.
  Lemma solve_group_sound env opt scale s s' g : NoDup (group_free_variables g) ->
    solve_group env opt scale s g = Done s' ->
    rewritten (fun v => In v (group_free_variables g)) s s'.
  Proof.
    intros N H. unfold solve_group in H.
    apply obind_done in H. destruct H as (values & Hv & H).
    apply obind_done in H. destruct H as (values' & Ho & H).
    apply obind_done in H. destruct H as (vt & Ht & H).
    apply obind_done in H. destruct H as (vs & Hw & H). inversion H; subst.
    unfold write_back in Hw. unfold write_back_transformed in Ht. simpl in Hw, Ht.
    rewrite index_set_nodup in Hw, Ht by auto.
    apply (write_spec (fun x => nmul scale x)) in Hw. destruct Hw as (L & U & _).
    apply (write_spec (fun x => x)) in Ht. destruct Ht as (L' & U' & _).
    exists vs, vt. auto.
  Qed.
  Lemma rewritten_weaken (W W' : nat -> Prop) s s' : (forall v, W v -> W' v) ->
    rewritten W s s' -> rewritten W' s s'.
  Proof. intros H (vs & vt & E & L1 & L2 & U). exists vs, vt. repeat (split; auto). Qed.

  Lemma groups_in_range env s free gs : env_ok env -> eq_ok s -> NoDup free ->
    (forall v, In v free -> v < length (sys_variables s)) ->
    find_strongly_connected_expressions (sys_eqgraph s) free (env_order env) = Done gs ->
    exists m, valid (masked (sys_eqgraph s) free) m /\
      is_maximum_matching (masked (sys_eqgraph s) free) (a_to_b m) /\
      group_order (eq_expressions (sys_eqgraph s)) free (a_to_b m) gs.
  Proof.
    intros EO [E1 E2] N Hr H.
    destruct (find_groups_ok (sys_eqgraph s) free (env_order env)) as (m & gs' & Q1 & Q2 & Q3 & Q4 & Q5); auto.
    - intros v Hv. rewrite E1. auto.
    - right. eauto.
    - apply EO.
    - rewrite H in Q4. inversion Q4; subst. eauto.
  Qed.

  Lemma single_pass_sound env opt scale free s s' : env_ok env -> eq_ok s -> NoDup free ->
    (forall v, In v free -> v < length (sys_variables s)) ->
    solve_single_pass env opt scale free s = Done s' ->
    rewritten (fun v => In v free) s s'.
  Proof.
    intros EO EQ N Hr H. unfold solve_single_pass in H.
    apply obind_done in H. destruct H as (gs & Hg & H).
    destruct (groups_in_range _ _ _ _ EO EQ N Hr Hg) as (m & _ & _ & GO).
    assert (G : forall l s1, incl l gs -> ofold (solve_group env opt scale) l s1 = Done s' ->
              rewritten (fun v => In v free) s1 s').
    { induction l as [|g l IH]; simpl; intros s1 Hi Hf.
      - inversion Hf; subst. apply rewritten_refl.
      - apply obind_done in Hf. destruct Hf as (s2 & H2 & Hf).
        apply IH in Hf; [|intros x Hx; apply Hi; simpl; auto].
        assert (Hg' : In g gs) by (apply Hi; simpl; auto).
        apply solve_group_sound in H2; [|apply (go_vonce _ _ _ _ GO _ Hg')].
        eapply rewritten_trans; [|exact Hf]. eapply rewritten_weaken; [|exact H2].
        intros v Hv. apply (go_vars _ _ _ _ GO _ _ Hg') in Hv. destruct Hv as (e & _ & _ & Hv & _). auto. }
    eapply G; eauto. intros x; auto.
  Qed.

  (** Elements of the system have their variables in range *)
  Definition el_ok s : Prop := forall id e v, nth_error (sys_elements s) id = Some e ->
    In v (element_variables e) -> v < length (sys_variables s).
  Lemma models_el_ok s sk : models s sk -> el_ok s.
  Proof.
    intros M id e v He Hv. destruct (item_coords_vars _ _ _ _ M He) as [_ H].
    destruct (H v Hv) as (c & _ & Hc). now apply (m_value _ _ M) in Hc.
  Qed.
  Lemma rewritten_el_ok W s s' : rewritten W s s' -> el_ok s -> el_ok s'.
  Proof. intros (vs & vt & -> & L & _) H id e v. simpl. rewrite L. apply H. Qed.

  Definition all_writable (opts : options) s (v : nat) : Prop :=
    (o_decomposer opts = RecursiveAssembly /\ inside s v) \/ writable s v.

  Lemma solve_component_sound env opts scale rng s rng' s' c : env_ok env -> eq_ok s -> el_ok s ->
    In c (components (sys_graph s)) ->
    solve_component env opts scale (rng, s) c = Done (rng', s') ->
    rewritten (all_writable opts s) s s'.
  Proof.
    intros EO EQ EL Hc H. unfold solve_component in H.
    destruct (c_elements c) as [|e0 es0] eqn:Ec.
    { inversion H; subst. apply rewritten_refl. }
    rewrite <- Ec in H.
    apply obind_done in H. destruct H as (free & Hf & H).
    apply component_free_spec in Hf. destruct Hf as [N Hf].
    apply obind_done in H. destruct H as ([rng1 vt] & Hp & H).
    assert (R1 : rewritten (fun _ => False) s (with_values (sys_variables s) vt s)).
    { exists (sys_variables s), vt. split; auto. split; auto. split; [|auto].
      destruct (o_perturb opts).
      - now apply perturb_spec in Hp.
      - inversion Hp; subst. auto. }
    set (s1 := with_values (sys_variables s) vt s) in *.
    assert (Hr : forall v, In v free -> v < length (sys_variables s1)).
    { intros v Hv. apply Hf in Hv. destruct Hv as (id & e & _ & He & Hv & _).
      simpl. eapply EL; eauto. }
    apply obind_done in H. destruct H as (s2 & Hs2 & H). inversion H; subst rng' s'.
    eapply rewritten_trans; [eapply rewritten_weaken; [|exact R1]; intros v []|].
    assert (W : forall v, In v free -> all_writable opts s v).
    { intros v Hv. right. apply Hf in Hv. destruct Hv as (id & e & H1 & H2 & H3 & H4).
      exists c, id, e. rewrite Ec in *. auto. }
    destruct (o_decomposer opts) eqn:Ed.
    - apply solve_none_sound in Hs2; auto. eapply rewritten_weaken; [|exact Hs2]. auto.
    - apply single_pass_sound in Hs2; auto.
      eapply rewritten_weaken; [|exact Hs2]. auto.
    - apply (eo_assembly _ EO) in Hs2. destruct Hs2 as (vs' & vt' & -> & L1 & L2 & Fr).
      exists vs', vt'. split; auto. split; auto. split; auto. intros v Hv. apply Fr.
      intros id e Hid He Hin. apply Hv. left. split; [auto|]. exists c, id, e. auto.
  Qed.

  Lemma all_writable_rewritten opts W s s' v : rewritten W s s' ->
    (all_writable opts s' v <-> all_writable opts s v).
  Proof. intros (vs & vt & -> & _). reflexivity. Qed.

  Lemma solve_sound env opts s s' : env_ok env -> eq_ok s -> el_ok s ->
    solve env opts s = Done s' ->
    exists vt et, rewritten (all_writable opts s)
      (with_transformed vt et s) s'.
  Proof.
    intros EO EQ EL H. unfold solve in H.
    apply obind_done in H. destruct H as ([rng s1] & H & E). inversion E; subst s1.
    unfold scale_system in H. set (scale := calculate_system_scale s) in *. 
    match type of H with context [with_transformed ?a ?b s] =>
      exists a, b; set (s0 := with_transformed a b s) in * end.
    match type of H with ofold ?f _ _ = _ =>
      pose proof (ofold_inv_prefix (fun (pre : list component) (st : N * system F) =>
         rewritten (all_writable opts s) s0 (snd st)) f (components (sys_graph s0))) as G end.
    specialize (G) with (s := (42%N, s0)) (s' := (rng, s')). cbn [snd] in G. apply G; auto.
    - intros pre c post [r1 s1] [r2 s2] Ec R Hst. cbn [snd] in *.
      assert (Hc : In c (components (sys_graph s1))).
      { destruct R as (vs & vt & -> & _). simpl. change (sys_graph s) with (sys_graph s0).
        rewrite Ec. apply in_app_iff; simpl; auto. }
      assert (EQ1 : eq_ok s1) by (eapply rewritten_eq_ok; eauto).
      assert (EL1 : el_ok s1) by (eapply rewritten_el_ok; eauto).
      pose proof (solve_component_sound _ _ _ _ _ _ _ _ EO EQ1 EL1 Hc Hst) as R'.
      eapply rewritten_trans; [exact R|]. eapply rewritten_weaken; [|exact R'].
      intros v. apply (all_writable_rewritten opts _ s0 s1 v) in R. intros Hv. apply R in Hv. exact Hv.
    - apply rewritten_refl.
  Qed.

  (** ** The sketch after solving *)
  Definition reread (vs : list F) (it : item F) (e : encoded_element) : item F :=
    match it, e with
    | ILength l, ELength a => ILength (nth a vs l)
    | IPoint x y, EPoint a => IPoint (nth a vs x) (nth (S a) vs y)
    | _, _ => it
    end.
  Definition resketch (vs : list F) (els : list encoded_element) sk : sketch F :=
    Sketch (sk_id sk) (map (fun '(it, e) => reread vs it e) (combine (sk_items sk) els))
           (sk_relations sk) (sk_fixed sk).

  Lemma resketch_nth vs els sk i it e : nth_error (sk_items sk) i = Some it ->
    nth_error els i = Some e -> nth_error (sk_items (resketch vs els sk)) i = Some (reread vs it e).
  Proof.
    intros H1 H2. simpl. rewrite nth_error_map, nth_error_combine, H1, H2. auto.
  Qed.

  Lemma nth_of {A} (l : list A) i d x : nth_error l i = Some x -> nth i l d = x.
  Proof. revert i; induction l; destruct i; simpl; intros; try discriminate; auto. congruence. Qed.

  Lemma resketch_value s sk vs c v : models s sk -> length vs = length (sys_variables s) ->
    addr (sys_elements s) c = Some v ->
    nth_error vs v = coord_value (resketch vs (sys_elements s) sk) c.
  Proof.
    intros M L Hc. destruct (m_value _ _ M _ _ Hc) as [Hlt _].
    destruct (nth_error_ex vs v) as [x Hx]; [lia|]. rewrite Hx.
    unfold addr in Hc. destruct (nth_error (sys_elements s) (fst c)) as [e|] eqn:E; [|discriminate].
    destruct (elem_nth _ _ _ _ M E) as (it & Hit & R).
    unfold coord_value. rewrite (resketch_nth vs _ _ _ _ _ Hit E).
    destruct e, it; simpl in R; try contradiction; try discriminate; destruct (snd c) as [|[|]];
      inversion Hc; subst; cbn [reread]; symmetry; f_equal; now apply nth_of.
  Qed.

  Lemma rewritten_models W s sk s' vt et : models s sk ->
    rewritten W (with_transformed vt et s) s' ->
    models s' (resketch (sys_variables s') (sys_elements s) sk).
  Proof.
    intros M (vs & vt' & -> & L & _ & U). simpl in *. unfold resketch.
    eapply models_values with (s := s); simpl; auto.
    - apply Forall2_nth_intro.
      + rewrite map_length, combine_length, (items_length _ _ M). lia.
      + intros i it it' Hi Hi'. destruct (item_rep_nth _ _ _ _ M Hi) as (e & He & R).
        rewrite nth_error_map, nth_error_combine, Hi, He in Hi'. inversion Hi'; subst.
        destruct it, e; simpl in *; try contradiction; auto.
    - intros c v Hc. now apply (resketch_value s sk).
  Qed.

  Lemma resketch_kept s sk vs c : models s sk -> length vs = length (sys_variables s) ->
    (forall v, addr (sys_elements s) c = Some v -> nth_error vs v = nth_error (sys_variables s) v) ->
    coord_value (resketch vs (sys_elements s) sk) c = coord_value sk c.
  Proof.
    intros M L H. destruct (addr (sys_elements s) c) as [v|] eqn:E.
    - rewrite <- (resketch_value _ _ _ _ _ M L E). rewrite H by auto. now apply (m_value _ _ M) in E.
    - unfold coord_value. simpl. rewrite nth_error_map, nth_error_combine.
      unfold addr in E. destruct (nth_error (sk_items sk) (fst c)) as [it|] eqn:Ei; auto.
      destruct (item_rep_nth _ _ _ _ M Ei) as (e & He & R). rewrite He in *. simpl.
      destruct it, e; simpl in *; try contradiction; destruct (snd c) as [|[|]]; auto; discriminate.
  Qed.

  Lemma inside_constrained s sk c v : models s sk -> addr (sys_elements s) c = Some v ->
    inside s v -> constrained sk c.
  Proof.
    intros M Hc (cc & id & e & Hcc & Hid & He & Hv).
      pose proof (m_graph _ _ M) as G. pose proof (wg_part _ G) as P.
      apply In_nth_error in Hcc. destruct Hcc as [ci Hci].
      assert (Hlt : id < length (element_component (sys_graph s))) by (eapply p_range; eauto).
      destruct (nth_error_ex _ _ Hlt) as [x Hx].
      assert (Hne : nth_error (element_component (sys_graph s)) id <> Some None).
      { assert (x <> None) by (apply (p_cov _ _ _ _ P _ _ Hx); eauto). congruence. }
      rewrite (wg_len _ G) in Hlt. apply (wg_con _ G _ Hlt) in Hne.
      destruct Hne as (gc & Hgc & Hin). apply In_nth_error in Hgc. destruct Hgc as [k Hk].
      assert (Hk' := nth_error_lt _ _ _ Hk). rewrite (m_gclen _ _ M) in Hk'.
      destruct (nth_error_ex _ _ Hk') as [r Hr].
      rewrite (m_ginc _ _ M _ _ _ Hr Hk) in Hin. unfold prims in Hin. apply in_flat_map in Hin.
      destruct Hin as (i & Hi & Hie). exists r, i. split; [eapply nth_error_In; eauto|]. split; auto.
      destruct (item_coords_vars _ _ _ _ M He) as [_ HC]. destruct (HC v Hv) as (c' & Hc' & Ha).
      assert (c' = c) by (eapply addr_inj; eauto; apply (m_prim _ _ M)). subst c'.
      unfold ends in Hie. unfold item_coords.
      destruct (nth_error (sk_items sk) i) as [it|] eqn:Ei.
      2:{ destruct Hie as [<-|[]]. unfold item_coords in Hc'. now rewrite Ei in Hc'. }
      destruct (item_rep_nth _ _ _ _ M Ei) as (e' & He' & R).
      assert (PT : forall p a, pt_at (sys_elements s) p = Some a -> In c (item_coords sk p) ->
                c = (p, 0) \/ c = (p, 1)).
      { intros p a Hp Hcp. destruct (pt_at_item _ _ _ _ M Hp) as (x1 & y1 & Q & _).
        unfold item_coords in Hcp. rewrite Q in Hcp. simpl in Hcp. intuition. }
      assert (LN : forall p a, len_at (sys_elements s) p = Some a -> In c (item_coords sk p) ->
                c = (p, 0)).
      { intros p a Hp Hcp. destruct (len_at_item _ _ _ _ M Hp) as (x1 & Q & _).
        unfold item_coords in Hcp. rewrite Q in Hcp. simpl in Hcp. intuition. }
      destruct it as [l|x1 y1|p q|p q], e'; simpl in R; try contradiction.
      + destruct Hie as [<-|[]]. unfold item_coords in Hc'. now rewrite Ei in Hc'.
      + destruct Hie as [<-|[]]. unfold item_coords in Hc'. now rewrite Ei in Hc'.
      + destruct R as [R1 R2]. destruct Hie as [<-|[<-|[]]].
        * destruct (PT _ _ R1 Hc') as [->| ->]; simpl; auto.
        * destruct (PT _ _ R2 Hc') as [->| ->]; simpl; auto.
      + destruct R as [R1 R2]. destruct Hie as [<-|[<-|[]]].
        * destruct (PT _ _ R1 Hc') as [->| ->]; simpl; auto.
        * rewrite (LN _ _ R2 Hc'); simpl; auto.
  Qed.
  Lemma writable_constrained s sk c v : models s sk -> addr (sys_elements s) c = Some v ->
    writable s v -> constrained sk c /\ ~ In c (sk_fixed sk).
  Proof.
    intros M Hc (cc & id & e & Hcc & Hid & He & Hv & Hfx). split.
    - eapply inside_constrained; eauto. exists cc, id, e. auto.
    - intros H. apply Hfx. now apply (m_fixed _ _ M _ _ Hc).
  Qed.

  Theorem solve_models env opts s sk s' : env_ok env -> models s sk ->
    solve env opts s = Done s' ->
    exists sk', models s' sk' /\
      match o_decomposer opts with
      | RecursiveAssembly => solved_assembly sk sk'
      | _ => solved sk sk'
      end.
  Proof.
    intros EO M H.
    destruct (solve_sound _ _ _ _ EO (models_eq_ok _ _ M) (models_el_ok _ _ M) H) as (vt & et & R).
    exists (resketch (sys_variables s') (sys_elements s) sk). split; [eapply rewritten_models; eauto|].
    pose proof R as (vs & vt' & Es & L & _ & U). simpl in L, U.
    assert (Ev : sys_variables s' = vs) by (subst s'; auto). rewrite Ev.
    assert (SH : Forall2 item_shape_eq (sk_items sk) (sk_items (resketch vs (sys_elements s) sk))).
    { apply Forall2_nth_intro.
      + simpl. rewrite map_length, combine_length, (items_length _ _ M). lia.
      + intros i it it' Hi Hi'. destruct (item_rep_nth _ _ _ _ M Hi) as (e & He & Rr).
        rewrite (resketch_nth vs _ _ _ _ _ Hi He) in Hi'. inversion Hi'; subst.
        destruct it, e; simpl in *; try contradiction; auto. }
    assert (FR : o_decomposer opts <> RecursiveAssembly ->
       forall c, ~ constrained sk c \/ In c (sk_fixed sk) ->
       coord_value (resketch vs (sys_elements s) sk) c = coord_value sk c).
    { intros Hd c Hc. apply (resketch_kept s); auto. intros v Hv. apply U.
      intros [[Hw _]|Hw]; [contradiction|]. destruct (writable_constrained _ _ _ _ M Hv Hw). tauto. }
    assert (FA : forall c, ~ constrained sk c ->
       coord_value (resketch vs (sys_elements s) sk) c = coord_value sk c).
    { intros c Hc. apply (resketch_kept s); auto. intros v Hv. apply U.
      intros [[_ Hw]|Hw]; [|destruct (writable_constrained _ _ _ _ M Hv Hw); tauto].
      apply Hc. eapply inside_constrained; eauto. }
    destruct (o_decomposer opts) eqn:Ed.
    - repeat (split; [solve [auto]|]). apply FR. discriminate.
    - repeat (split; [solve [auto]|]). apply FR. discriminate.
    - repeat (split; [solve [auto]|]). exact FA.
  Qed.
End Solve.
