(** Lemmas behind the theorems of [Props_Api.v]. *)
From Coq Require Import List Arith NArith ZArith Lia Bool Permutation.
From Verif Require Import Num Outcome Lib ModelExpr ModelGraph ModelSystem ModelMatching ModelSolve
  ModelNumerical ModelApi Spec_Sketch Spec_Solver Spec_History
  Proofs_Graph Proofs_System Proofs_Calls Proofs_Analyze Proofs_Solve Proofs_Safe Proofs_Step
  Proofs_History.
Import ListNotations.

Section Api.
  Context {F : Type} {NF : Num F}.
  Implicit Types (s : system F) (sk : sketch F) (env : solver_env F) (l : log F).

  (** A value depends only on the coordinates of the element. *)
  Lemma value_frame s sk sk' i it : models s sk ->
    nth_error (sk_items sk) i = Some it ->
    (forall j a, nth_error (sk_items sk) j = Some a ->
       exists b, nth_error (sk_items sk') j = Some b /\ item_shape_eq a b) ->
    (forall c, In c (item_coords sk i) -> coord_value sk' c = coord_value sk c) ->
    value_of sk' i = value_of sk i.
  Proof.
    intros M H S E. destruct (item_rep_nth _ _ _ _ M H) as (e & He & R).
    unfold item_coords in E. rewrite H in E. unfold value_of. rewrite H.
    assert (PT : forall p a, pt_at (sys_elements s) p = Some a ->
       coord_value sk' (p, 0) = coord_value sk (p, 0) -> coord_value sk' (p, 1) = coord_value sk (p, 1) ->
       point_of sk' p = point_of sk p).
    { intros p a Hp E0 E1. destruct (pt_at_item _ _ _ _ M Hp) as (x & y & Hi & _).
      destruct (S _ _ Hi) as (b & Hb & Sb). destruct b; simpl in Sb; try contradiction.
      unfold coord_value, point_of in *. simpl in *. rewrite Hi, Hb in *. congruence. }
    assert (LN : forall p a, len_at (sys_elements s) p = Some a ->
       coord_value sk' (p, 0) = coord_value sk (p, 0) -> length_of sk' p = length_of sk p).
    { intros p a Hp E0. destruct (len_at_item _ _ _ _ M Hp) as (x & Hi & _).
      destruct (S _ _ Hi) as (b & Hb & Sb). destruct b; simpl in Sb; try contradiction.
      unfold coord_value, length_of in *. simpl in *. rewrite Hi, Hb in *. congruence. }
    destruct (S _ _ H) as (it' & H' & S'). rewrite H'.
    destruct it, it'; simpl in S'; try contradiction.
    - assert (Q := E (i, 0) (or_introl eq_refl)). unfold coord_value in Q. simpl in Q. rewrite H, H' in Q. congruence.
    - assert (Q := E (i, 0) (or_introl eq_refl)). assert (Q1 := E (i, 1) (or_intror (or_introl eq_refl))).
      unfold coord_value in Q, Q1. simpl in Q, Q1. rewrite H, H' in Q, Q1. congruence.
    - destruct S' as [<- <-]. destruct e; simpl in R; try contradiction. destruct R as [R1 R2].
      unfold line_of. rewrite H, H'. rewrite (PT _ _ R1), (PT _ _ R2); auto; apply E; simpl; auto.
    - destruct S' as [<- <-]. destruct e; simpl in R; try contradiction. destruct R as [R1 R2].
      unfold circle_of. rewrite H, H'. rewrite (PT _ _ R1), (LN _ _ R2); auto; apply E; simpl; auto.
  Qed.

  Lemma get_own s sk h : models s sk -> In h (element_handles sk) ->
    match value_of sk (eh_id h) with Some v => get_value h s = Done v | None => False end.
  Proof.
    intros M H. pose proof (get_value_eq _ _ h M) as Q.
    apply in_element_handles in H. destruct H as (it & Hit & Hs & Ht).
    rewrite (proj2 (N.eqb_eq _ _) Hs) in Q.
    assert (T : has_tag sk (eh_tag h) (eh_id h) = true).
    { unfold has_tag. rewrite Hit, Ht. destruct it; auto. }
    rewrite T in Q. simpl in Q. destruct (value_of sk (eh_id h)) eqn:V; auto.
    destruct (item_rep_nth _ _ _ _ M Hit) as (e & He & R).
    unfold value_of in V. rewrite Hit in V. unfold line_of, circle_of in V. rewrite ?Hit in V.
    destruct it; try discriminate.
    - destruct e; simpl in R; try contradiction. destruct R as [R1 R2].
      destruct (point_of_at _ _ _ _ M R1) as (? & ? & E1 & _).
      destruct (point_of_at _ _ _ _ M R2) as (? & ? & E2 & _). rewrite E1, E2 in V. discriminate.
    - destruct e; simpl in R; try contradiction. destruct R as [R1 R2].
      destruct (point_of_at _ _ _ _ M R1) as (? & ? & E1 & _).
      destruct (len_at_item _ _ _ _ M R2) as (? & E2 & _). unfold length_of in V. rewrite E1, E2 in V. discriminate.
  Qed.

  Lemma get_frame s sk s' sk' h : models s sk -> models s' sk' -> In h (element_handles sk) ->
    In h (element_handles sk') ->
    value_of sk' (eh_id h) = value_of sk (eh_id h) -> get_value h s' = get_value h s.
  Proof.
    intros M M' H H' E. pose proof (get_own _ _ _ M H) as Q. pose proof (get_own _ _ _ M' H') as Q'.
    rewrite E in Q'. destruct (value_of sk (eh_id h)); [congruence|contradiction].
  Qed.

  (** ** Reading back *)
  Lemma read_latest env id l s h : env_ok env -> history env id l s -> no_solve l ->
    In (RElement h) (map snd l) -> eh_tag h = TPoint \/ eh_tag h = TLength ->
    exists v, latest l h = Some v /\ get_value h s = Done v.
  Proof.
    intros EO H N K T. destruct (history_inv _ _ _ _ EO H) as [sk I].
    apply (known_own _ _ _ _ _ I) in K. assert (K' := K). apply in_element_handles in K'.
    destruct K' as (it & Hit & _ & Ht). pose proof (iv_latest _ _ _ _ I N h it Hit K) as Q.
    pose proof (get_own _ _ _ (iv_models _ _ _ _ I) K) as G. unfold value_of in G. rewrite Hit in G.
    destruct it; simpl in Ht; [eauto|eauto|destruct T; congruence|destruct T; congruence].
  Qed.

  Lemma read_line env id l s p q h : env_ok env -> history env id l s ->
    In (CreateLine p q, RElement h) l ->
    exists a b, get_value p s = Done (VPoint a) /\ get_value q s = Done (VPoint b) /\
      get_value h s = Done (VLine a b).
  Proof.
    intros EO H K. destruct (history_inv _ _ _ _ EO H) as [sk I]. assert (M := iv_models _ _ _ _ I).
    pose proof (iv_line _ _ _ _ I _ _ K) as Q. simpl in Q.
    destruct (iv_known _ _ _ _ I _ _ K p (Some TPoint)) as [Kp Tp]; [simpl; auto|].
    destruct (iv_known _ _ _ _ I _ _ K q (Some TPoint)) as [Kq Tq]; [simpl; auto|].
    assert (Kh : In h (element_handles sk)).
    { eapply known_own; eauto. apply in_map_iff. exists (CreateLine p q, RElement h). auto. }
    pose proof (get_own _ _ _ M Kp) as Gp. pose proof (get_own _ _ _ M Kq) as Gq. pose proof (get_own _ _ _ M Kh) as Gh.
    apply in_element_handles in Kp, Kq. destruct Kp as (ip & Hp & _ & Ep), Kq as (iq & Hq & _ & Eq).
    rewrite (Tp _ eq_refl) in Ep. rewrite (Tq _ eq_refl) in Eq.
    destruct ip; try discriminate. destruct iq; try discriminate.
    unfold value_of, line_of, point_of in Gp, Gq, Gh. rewrite Hp in Gp. rewrite Hq in Gq. rewrite Q, Hp, Hq in Gh. simpl in *. eauto.
  Qed.
  Lemma read_circle env id l s p q h : env_ok env -> history env id l s ->
    In (CreateCircle p q, RElement h) l ->
    exists a b, get_value p s = Done (VPoint a) /\ get_value q s = Done (VLength b) /\
      get_value h s = Done (VCircle a b).
  Proof.
    intros EO H K. destruct (history_inv _ _ _ _ EO H) as [sk I]. assert (M := iv_models _ _ _ _ I).
    pose proof (iv_line _ _ _ _ I _ _ K) as Q. simpl in Q.
    destruct (iv_known _ _ _ _ I _ _ K p (Some TPoint)) as [Kp Tp]; [simpl; auto|].
    destruct (iv_known _ _ _ _ I _ _ K q (Some TLength)) as [Kq Tq]; [simpl; auto|].
    assert (Kh : In h (element_handles sk)).
    { eapply known_own; eauto. apply in_map_iff. exists (CreateCircle p q, RElement h). auto. }
    pose proof (get_own _ _ _ M Kp) as Gp. pose proof (get_own _ _ _ M Kq) as Gq. pose proof (get_own _ _ _ M Kh) as Gh.
    apply in_element_handles in Kp, Kq. destruct Kp as (ip & Hp & _ & Ep), Kq as (iq & Hq & _ & Eq).
    rewrite (Tp _ eq_refl) in Ep. rewrite (Tq _ eq_refl) in Eq.
    destruct ip; try discriminate. destruct iq; try discriminate.
    unfold value_of, circle_of, length_of, point_of in Gp, Gq, Gh. rewrite Hp in Gp. rewrite Hq in Gq. rewrite Q, Hp, Hq in Gh. simpl in *. eauto.
  Qed.

  (** ** Frame *)
  Lemma handles_step env id l s c s' r : env_ok env -> history env id l s -> allowed l c ->
    step env c s = Done (s', r) ->
    get_element_handles s' = get_element_handles s ++ match r with RElement h => [h] | _ => [] end /\
    get_constraint_handles s' = get_constraint_handles s ++ match r with RConstraint h => [h] | _ => [] end.
  Proof.
    intros EO H A Hs. destruct (history_step _ _ _ _ _ _ _ EO H A Hs) as (sk & sk' & I & S & I').
    rewrite !(element_handles_eq _ _ (iv_models _ _ _ _ I)), !(element_handles_eq _ _ (iv_models _ _ _ _ I')).
    rewrite !(constraint_handles_eq _ _ (iv_models _ _ _ _ I)), !(constraint_handles_eq _ _ (iv_models _ _ _ _ I')).
    rewrite <- (iv_eh _ _ _ _ I), <- (iv_eh _ _ _ _ I'), <- (iv_ch _ _ _ _ I), <- (iv_ch _ _ _ _ I').
    now rewrite created_elements_cons, created_constraints_cons.
  Qed.

  Lemma own_later env id l s c s' r sk sk' h : env_ok env -> history env id l s -> allowed l c ->
    inv id l s sk -> inv id ((c, r) :: l) s' sk' -> In h (element_handles sk) -> In h (element_handles sk').
  Proof.
    intros EO H A I I' K. rewrite <- (iv_eh _ _ _ _ I), in_created_elements in K.
    rewrite <- (iv_eh _ _ _ _ I'), in_created_elements. simpl; auto.
  Qed.

  Lemma spec_call_coords c sk sk' r : spec_call c sk = Some (sk', r) ->
    (forall j a, nth_error (sk_items sk) j = Some a ->
       exists b, nth_error (sk_items sk') j = Some b /\ item_shape_eq a b) /\
    (forall cd x, coord_value sk cd = Some x ->
       (forall h, updated c = Some h -> eh_id h <> fst cd) -> coord_value sk' cd = coord_value sk cd).
  Proof.
    assert (Z : forall rel fx rel' fx' id id' its, sk = Sketch id its rel fx -> sk' = Sketch id' its rel' fx' ->
      (forall j a, nth_error (sk_items sk) j = Some a ->
       exists b, nth_error (sk_items sk') j = Some b /\ item_shape_eq a b) /\
      (forall cd x, coord_value sk cd = Some x ->
       (forall h, updated c = Some h -> eh_id h <> fst cd) -> coord_value sk' cd = coord_value sk cd)).
    { intros. subst. simpl. split; auto. intros j a Ha. exists a. split; auto. apply shape_refl. }
    assert (W : forall it, sk_items sk' = sk_items sk ++ [it] ->
      (forall j a, nth_error (sk_items sk) j = Some a ->
       exists b, nth_error (sk_items sk') j = Some b /\ item_shape_eq a b) /\
      (forall cd x, coord_value sk cd = Some x ->
       (forall h, updated c = Some h -> eh_id h <> fst cd) -> coord_value sk' cd = coord_value sk cd)).
    { intros it E. split.
      - intros j a Ha. exists a. rewrite E. split; [now apply nth_error_app_old|apply shape_refl].
      - intros cd x Hx _. unfold coord_value in *. rewrite E.
        destruct (nth_error (sk_items sk) (fst cd)) eqn:Ei; [|discriminate].
        now rewrite (nth_error_app_old _ _ _ _ Ei). }
    destruct sk as [id its rel fx].
    destruct c; cbn [spec_call]; intros E;
    try (unfold add_item in E; inversion E; subst; eapply W; reflexivity);
    try (destruct (_ && _)%bool in E; [|discriminate]; unfold add_item in E; inversion E; subst; eapply W; reflexivity);
    try (unfold add_relation in E; destruct (relation_ok _ _) in E; [|discriminate]; inversion E; subst; eapply Z; reflexivity);
    try (destruct (has_tag _ _ _) in E; [|discriminate]; inversion E; subst; eapply Z; reflexivity);
    try (inversion E; subst; eapply Z; reflexivity).
    - destruct (has_tag _ _ _) eqn:T in E; [|discriminate]. inversion E; subst; clear E. simpl.
      apply has_tag_nth in T. destruct T as (it & Hit & Ht). simpl in Hit. destruct it; try discriminate. split.
      + intros j a Ha. rewrite nth_error_replace. destruct (Nat.eqb_spec (eh_id h) j) as [<-|].
        * rewrite (proj2 (Nat.ltb_lt _ _)) by (eapply nth_error_lt; eauto). eexists; split; eauto.
          rewrite Hit in Ha. inversion Ha; subst. exact Logic.I.
        * exists a; split; auto. apply shape_refl.
      + intros cd z Hz Hu. unfold coord_value. simpl. rewrite nth_error_replace.
        destruct (Nat.eqb_spec (eh_id h) (fst cd)) as [E|]; auto. exfalso. eapply Hu; eauto.
    - destruct (has_tag _ _ _) eqn:T in E; [|discriminate]. inversion E; subst; clear E. simpl.
      apply has_tag_nth in T. destruct T as (it & Hit & Ht). simpl in Hit. destruct it; try discriminate. split.
      + intros j a Ha. rewrite nth_error_replace. destruct (Nat.eqb_spec (eh_id h) j) as [<-|].
        * rewrite (proj2 (Nat.ltb_lt _ _)) by (eapply nth_error_lt; eauto). eexists; split; eauto.
          rewrite Hit in Ha. inversion Ha; subst. exact Logic.I.
        * exists a; split; auto. apply shape_refl.
      + intros cd z Hz Hu. unfold coord_value. simpl. rewrite nth_error_replace.
        destruct (Nat.eqb_spec (eh_id h) (fst cd)) as [E|]; auto. exfalso. eapply Hu; eauto.
    - destruct (nth_error _ _) in E; [|discriminate]. destruct (with_parameter _ _ _) in E; [|discriminate].
      inversion E; subst. eapply Z; reflexivity.
    - destruct (_ && _)%bool in E; [|discriminate]. destruct (value_of _ _) in E; [|discriminate].
      inversion E; subst. eapply Z; reflexivity.
    - destruct (nth_error _ _) in E; [|discriminate]. destruct (N.eqb _ _) in E; [|discriminate].
      destruct (residual_of _ _) in E; [|discriminate]. inversion E; subst. eapply Z; reflexivity.
  Qed.

  (** Coordinates of an own element belong to its parts *)
  Lemma coords_parts id l s sk h c : inv id l s sk -> In h (element_handles sk) ->
    In c (item_coords sk (eh_id h)) ->
    exists p x, In p (parts l h) /\ In p (element_handles sk) /\ eh_id p = fst c /\ coord_value sk c = Some x.
  Proof.
    intros I K Hc. assert (M := iv_models _ _ _ _ I).
    assert (K' := K). apply in_element_handles in K'. destruct K' as (it & Hit & Hs & Ht).
    destruct (item_rep_nth _ _ _ _ M Hit) as (e & He & R).
    destruct (proj1 (item_coords_vars _ _ _ _ M He) _ Hc) as (v & Hv & _).
    destruct (m_value _ _ M _ _ Hv) as [Hlt Hval]. destruct (nth_error_ex _ _ Hlt) as [x Hx].
    rewrite Hx in Hval.
    assert (Hi : exists ip, nth_error (sk_items sk) (fst c) = Some ip).
    { unfold coord_value in Hval. destruct (nth_error (sk_items sk) (fst c)); [eauto|discriminate]. }
    destruct Hi as [ip Hip]. set (p := EHandle (sk_id sk) (fst c) (item_tag ip)).
    assert (Kp : In p (element_handles sk)) by (apply in_element_handles; exists ip; auto).
    exists p, x. split; [|auto].
    apply (parts_coords id l s sk h p (snd c) x I K Kp); simpl; rewrite <- surjective_pairing; auto.
  Qed.

  Lemma value_step env id l s c s' r h : env_ok env -> history env id l s -> allowed l c ->
    step env c s = Done (s', r) -> (forall o, c <> Solve o) -> In (RElement h) (map snd l) ->
    (forall p, updated c = Some p -> ~ In p (parts l h)) ->
    get_value h s' = get_value h s.
  Proof.
    intros EO H A Hs Ns K U. destruct (history_step _ _ _ _ _ _ _ EO H A Hs) as (sk & sk' & I & S & I').
    apply (known_own _ _ _ _ _ I) in K. assert (K' := own_later _ _ _ _ _ _ _ _ _ _ EO H A I I' K).
    eapply get_frame; [apply I|apply I'|auto|auto|].
    assert (Q : spec_call c sk = Some (sk', r) \/ sk' = sk).
    { inversion S; subst; auto; exfalso; eapply Ns; eauto. }
    destruct Q as [Q| ->]; auto. apply spec_call_coords in Q. destruct Q as [Q1 Q2].
    assert (Ki := K). apply in_element_handles in Ki. destruct Ki as (it & Hit & _).
    eapply value_frame; [apply I|exact Hit|auto|].
    intros cd Hc. destruct (coords_parts _ _ _ _ _ _ I K Hc) as (p & x & P1 & P2 & P3 & P4).
    eapply Q2; eauto. intros h' Hu E. apply (U h' Hu).
    assert (h' = p); [|subst; auto].
    apply handle_eq with (sk := sk); auto; [|congruence].
    destruct c; simpl in Hu; try discriminate; inversion Hu; subst;
      (eapply known_own; [exact I|]; eapply (proj1 A); simpl; left; reflexivity).
  Qed.

  (** ** No panics *)
  Lemma relation_of_call sk l s id c : inv id l s sk -> allowed l c ->
    (forall h t, In (h, Some t) (call_elements c) -> has_tag sk t (eh_id h) = true) /\
    (forall h t, In (h, t) (call_elements c) -> has_tag sk (eh_tag h) (eh_id h) = true /\ eh_system h = sk_id sk).
  Proof.
    intros I A.
    assert (G : forall h t, In (h, t) (call_elements c) -> has_tag sk (eh_tag h) (eh_id h) = true /\ eh_system h = sk_id sk).
    { intros h t Hin. destruct (proj1 A h t Hin) as [K _]. apply (known_own _ _ _ _ _ I) in K.
      apply in_element_handles in K. destruct K as (it & Hit & Hs & Ht). split; auto.
      unfold has_tag. rewrite Hit, Ht. destruct it; auto. }
    split; auto. intros h t Hin. destruct (proj1 A h _ Hin) as [_ T]. rewrite <- (T t eq_refl). eapply G; eauto.
  Qed.

  Lemma spec_call_total id l s sk c : inv id l s sk -> allowed l c ->
    (forall o, c <> Solve o) -> c <> Analyze -> exists sk' r, spec_call c sk = Some (sk', r).
  Proof.
    intros I A N1 N2. destruct (relation_of_call _ _ _ _ _ I A) as [G G'].
    destruct c; cbn [spec_call call_elements] in *; unfold add_item, add_relation, relation_ok;
    try (rewrite ?G by (simpl; auto); cbn [andb]; eauto; fail).
    - destruct (G' h None) as [-> _]; [simpl; auto|]. eauto.
    - destruct (G' h None) as [-> _]; [simpl; auto|]. eauto.
    - destruct A as (_ & A & T). specialize (A h (or_introl eq_refl)). apply (known_own_c _ _ _ _ _ I) in A.
      apply in_constraint_handles in A. destruct A as (q & Hq & _ & Ht). rewrite Hq.
      rewrite Ht in *. destruct q; try discriminate; simpl; eauto.
    - destruct (G' h None) as [Ht Hs]; [simpl; auto|]. rewrite Ht, (proj2 (N.eqb_eq _ _) Hs). simpl.
      destruct (proj1 A h None) as [K _]; [simpl; auto|]. apply (known_own _ _ _ _ _ I) in K.
      pose proof (get_own _ _ _ (iv_models _ _ _ _ I) K) as Q. destruct (value_of sk (eh_id h)); [eauto|contradiction].
    - destruct A as (_ & A & T). specialize (A h (or_introl eq_refl)). apply (known_own_c _ _ _ _ _ I) in A.
      apply in_constraint_handles in A. destruct A as (q & Hq & Hs & Ht). rewrite Hq, (proj2 (N.eqb_eq _ _) Hs).
      destruct (residual_eq _ _ _ _ (iv_models _ _ _ _ I) Hq Hs Ht) as (x & -> & _). eauto.
    - congruence.
    - exfalso. eapply N1; eauto.
  Qed.

  Lemma step_done env id l s c : env_ok env -> history env id l s -> allowed l c -> room s ->
    (forall o, c <> Solve o) -> exists s' r, step env c s = Done (s', r).
  Proof.
    intros EO H A R N. destruct (history_inv _ _ _ _ EO H) as [sk I].
    destruct c; try (destruct (spec_call_total _ _ _ _ _ I A N) as (sk1 & r1 & Hc); [discriminate|];
      eapply step_progress; eauto using iv_models, allowed_unforged; apply I).
    destruct (find_overconstraints_ok _ _ (iv_models _ _ _ _ I)) as (hs & E & _). simpl. rewrite E. simpl; eauto.
  Qed.
  Lemma step_nopanic K env id l s c : env_ok env -> env_safe_upto K env -> history env id l s -> allowed l c -> room s ->
    limited K s -> (forall o, c = Solve o -> o_decomposer o <> RecursiveAssembly) -> step env c s <> Panic.
  Proof.
    intros EO ES H A R L N. destruct (history_inv _ _ _ _ EO H) as [sk I].
    assert (Q : (forall o, c <> Solve o) \/ exists o, c = Solve o).
    { destruct c; try (left; intros; discriminate). right; eauto. }
    destruct Q as [Q|[o ->]].
    - destruct (step_done env id l s c) as (s' & r & ->); auto. discriminate.
    - simpl. unfold ret_unit. apply obind_nopanic; [|intros; discriminate].
      eapply solve_nopanic; eauto using iv_models. apply R.
  Qed.

  (** ** Sizes *)
  Lemma small_room id l s sk : inv id l s sk -> small l -> room s.
  Proof.
    intros I [S1 S2]. assert (M := iv_models _ _ _ _ I).
    pose proof (variables_count _ _ M). pose proof (expressions_count _ _ M).
    rewrite (iv_eh _ _ _ _ I) in S1. rewrite (iv_ch _ _ _ _ I) in S2.
    unfold element_handles in S1. unfold constraint_handles in S2. rewrite map_length, seq_length in S1, S2.
    pose proof (items_length _ _ M). pose proof (m_clen _ _ M). unfold room. lia.
  Qed.

  Lemma step_done_small env id l s c : env_ok env -> history env id l s -> allowed l c -> small l ->
    (forall o, c <> Solve o) -> exists s' r, step env c s = Done (s', r).
  Proof.
    intros EO H A S N. destruct (history_inv _ _ _ _ EO H) as [sk I].
    eapply step_done; eauto using small_room.
  Qed.
  Lemma inv_limited id l s sk K : inv id l s sk ->
    (N.of_nat (length (created_elements l)) <= K)%N -> (N.of_nat (length (created_constraints l)) <= K)%N -> limited K s.
  Proof.
    intros I S1 S2. assert (M := iv_models _ _ _ _ I).
    rewrite (iv_eh _ _ _ _ I) in S1. rewrite (iv_ch _ _ _ _ I) in S2.
    unfold element_handles in S1. unfold constraint_handles in S2. rewrite map_length, seq_length in S1, S2.
    pose proof (items_length _ _ M). pose proof (m_clen _ _ M). unfold limited. lia.
  Qed.
  Lemma step_nopanic_limited K env id l s c : env_ok env -> env_safe_upto K env -> history env id l s -> allowed l c ->
    small l -> (N.of_nat (length (created_elements l)) <= K)%N -> (N.of_nat (length (created_constraints l)) <= K)%N ->
    (forall o, c = Solve o -> o_decomposer o <> RecursiveAssembly) -> step env c s <> Panic.
  Proof.
    intros EO ES H A S S1 S2 N. destruct (history_inv _ _ _ _ EO H) as [sk I].
    eapply step_nopanic; eauto using small_room, inv_limited.
  Qed.
  Lemma step_nopanic_small env id l s c : env_ok env -> env_safe env -> history env id l s -> allowed l c -> small l ->
    (forall o, c = Solve o -> o_decomposer o <> RecursiveAssembly) -> step env c s <> Panic.
  Proof.
    intros EO ES H A S N.
    apply (step_nopanic_limited (N.max (N.of_nat (length (created_elements l))) (N.of_nat (length (created_constraints l)))) env id l s c);
      auto; [now apply env_safe_any|lia|lia].
  Qed.

  (** ** Listings *)
  Lemma element_handles_nodup sk : NoDup (element_handles sk).
  Proof.
    unfold element_handles. apply FinFun.Injective_map_NoDup; [|apply seq_NoDup].
    intros a b E. inversion E. auto.
  Qed.
  Lemma constraint_handles_nodup sk : NoDup (constraint_handles sk).
  Proof.
    unfold constraint_handles. apply FinFun.Injective_map_NoDup; [|apply seq_NoDup].
    intros a b E. inversion E. auto.
  Qed.
  Lemma listings env id l s : env_ok env -> history env id l s ->
    get_element_handles s = created_elements l /\ NoDup (created_elements l) /\
    get_constraint_handles s = created_constraints l /\ NoDup (created_constraints l).
  Proof.
    intros EO H. destruct (history_inv _ _ _ _ EO H) as [sk I]. assert (M := iv_models _ _ _ _ I).
    rewrite (element_handles_eq _ _ M), (constraint_handles_eq _ _ M), (iv_eh _ _ _ _ I), (iv_ch _ _ _ _ I).
    split; [auto|]. split; [apply element_handles_nodup|]. split; [auto|apply constraint_handles_nodup].
  Qed.

  (** ** Solving *)
  Lemma constrained_log id l s sk c p : inv id l s sk -> constrained sk c ->
    In p (element_handles sk) -> eh_id p = fst c -> is_constrained l p.
  Proof.
    intros I (q & i & Hq & Hi & Hc) Kp Ep. apply In_nth_error in Hq. destruct Hq as [j Hj].
    destruct (iv_con' _ _ _ _ I _ _ Hj) as (c0 & k & Hin & E). rewrite E in Hi.
    unfold call_ids in Hi. apply in_map_iff in Hi. destruct Hi as ([h t] & Eh & Hh). simpl in Eh. subst i.
    exists c0, k, h, t. split; auto. split; auto.
    destruct (iv_known _ _ _ _ I _ _ Hin _ _ Hh) as [Kh _].
    destruct (coords_parts _ _ _ _ _ _ I Kh Hc) as (p' & x & P1 & P2 & P3 & P4).
    assert (p' = p) by (eapply handle_eq; eauto; congruence). subst. auto.
  Qed.

  Lemma solve_frame env id l s o s' r h : env_ok env -> history env id l s ->
    o_decomposer o <> RecursiveAssembly -> step env (Solve o) s = Done (s', r) ->
    In (RElement h) (map snd l) ->
    (forall p, In p (parts l h) -> is_fixed l p = true \/ ~ is_constrained l p) ->
    get_value h s' = get_value h s.
  Proof.
    intros EO H Nd Hs K P.
    assert (A : allowed l (Solve o)) by (repeat split; simpl; intros; contradiction).
    destruct (history_step _ _ _ _ _ _ _ EO H A Hs) as (sk & sk' & I & S & I').
    apply (known_own _ _ _ _ _ I) in K. assert (K' := own_later _ _ _ _ _ _ _ _ _ _ EO H A I I' K).
    inversion S; subst; try discriminate; try contradiction.
    destruct H2 as (S1 & S2 & S3 & S4 & S5).
    eapply get_frame; [apply I|apply I'|auto|auto|].
    assert (Ki := K). apply in_element_handles in Ki. destruct Ki as (it & Hit & _).
    eapply value_frame; [apply I|exact Hit| |].
    - intros j a Ha. pose proof (shape_nth _ _ j S4) as Q. rewrite Ha in Q.
      destruct (nth_error (sk_items sk') j); [eauto|contradiction].
    - intros c Hc. destruct (coords_parts _ _ _ _ _ _ I K Hc) as (p & x & P1 & P2 & P3 & P4).
      apply S5. destruct (P p P1) as [Hf|Hc'].
      + right. destruct c as [i k]. simpl in P3. subst i. apply (iv_fixed _ _ _ _ I p k x P4 P2). auto.
      + left. intros Q. apply Hc'. eapply constrained_log; eauto.
  Qed.

  Lemma solve_frame_any env id l s o s' r h : env_ok env -> history env id l s ->
    step env (Solve o) s = Done (s', r) -> In (RElement h) (map snd l) ->
    (forall p, In p (parts l h) -> ~ is_constrained l p) ->
    get_value h s' = get_value h s.
  Proof.
    intros EO H Hs K P.
    destruct (o_decomposer o) eqn:Ed; [eapply solve_frame; eauto; congruence..|].
    assert (A : allowed l (Solve o)) by (repeat split; simpl; intros; contradiction).
    destruct (history_step _ _ _ _ _ _ _ EO H A Hs) as (sk & sk' & I & S & I').
    apply (known_own _ _ _ _ _ I) in K. assert (K' := own_later _ _ _ _ _ _ _ _ _ _ EO H A I I' K).
    inversion S; subst; try discriminate; try contradiction.
    match goal with S : solved_assembly _ _ |- _ => destruct S as (S1 & S2 & S3 & S4 & S5) end.
    eapply get_frame; [apply I|apply I'|auto|auto|].
    assert (Ki := K). apply in_element_handles in Ki. destruct Ki as (it & Hit & _).
    eapply value_frame; [apply I|exact Hit| |].
    - intros j a Ha. pose proof (shape_nth _ _ j S4) as Q. rewrite Ha in Q.
      destruct (nth_error (sk_items sk') j); [eauto|contradiction].
    - intros c Hc. destruct (coords_parts _ _ _ _ _ _ I K Hc) as (p & x & P1 & P2 & P3 & P4).
      apply S5. intros Q. apply (P p P1). eapply constrained_log; eauto.
  Qed.

  (** ** Parameters *)
  Lemma own_residual id l s sk h : inv id l s sk -> In h (constraint_handles sk) ->
    exists q x, nth_error (sk_relations sk) (ch_id h) = Some q /\ residual_of sk q = Some x /\
      constraint_residual h s = Done x.
  Proof.
    intros I K. apply in_constraint_handles in K. destruct K as (q & Hq & Hs & Ht).
    destruct (residual_eq _ _ _ _ (iv_models _ _ _ _ I) Hq Hs Ht) as (x & E1 & E2). eauto.
  Qed.
  Lemma residual_items id id' its rel rel' fx fx' (q : relation F) :
    residual_of (Sketch id its rel fx) q = residual_of (Sketch id' its rel' fx') q.
  Proof. reflexivity. Qed.

  Lemma parameter_exact env id l s c h x c' s' r s'' h' : env_ok env -> history env id l s ->
    In (c, RConstraint h) l -> with_new_parameter c x = Some c' ->
    step env (UpdateParameter h x) s = Done (s', r) ->
    step env c' s' = Done (s'', RConstraint h') ->
    constraint_residual h s' = constraint_residual h' s''.
  Proof.
    intros EO H K W H1 H2. destruct (history_inv _ _ _ _ EO H) as [sk I].
    assert (Kh : In (RConstraint h) (map snd l)) by (apply in_map_iff; exists (c, RConstraint h); auto).
    assert (Kc := known_own_c _ _ _ _ _ I Kh). apply in_constraint_handles in Kc.
    destruct Kc as (q & Hq & _ & Ht).
    destruct (iv_con _ _ _ _ I _ _ K) as (q0' & Hq0' & Ct & Ci). rewrite Hq in Hq0'. inversion Hq0'; subst q0'. clear Hq0'.
    assert (A : allowed l (UpdateParameter h x)).
    { split; [simpl; intros; contradiction|]. split; [simpl; intuition congruence|].
      rewrite Ht. destruct c; try discriminate; simpl in Ct; inversion Ct as [E]; auto. }
    destruct (inv_history_step _ _ _ _ _ _ _ _ EO I A H1) as (sk' & S & I').
    assert (A' : allowed ((UpdateParameter h x, r) :: l) c').
    { assert (Ec : call_elements c' = call_elements c) by (destruct c; try discriminate; inversion W; auto).
      split; [|split].
      - intros h0 t Hin. rewrite Ec in Hin. destruct (iv_known _ _ _ _ I' c (RConstraint h) (or_intror K) _ _ Hin) as [K1 K2].
        split; auto. rewrite <- (iv_eh _ _ _ _ I'), in_created_elements in K1. auto.
      - destruct c; try discriminate; inversion W; simpl; contradiction.
      - destruct c; try discriminate; inversion W; auto. }
    destruct (inv_history_step _ _ _ _ _ _ _ _ EO I' A' H2) as (sk2 & S2 & I2).
    inversion S; subst. simpl in H0. rewrite Hq in H0.
    destruct (with_parameter (ch_tag h) x q) as [q'|] eqn:Ew; [|discriminate]. inversion H0; subst. clear H0.
    set (skp := Sketch (sk_id sk) (sk_items sk) (replace (sk_relations sk) (ch_id h) q') (sk_fixed sk)) in *.
    assert (Kh' : In h (constraint_handles skp)) by (eapply known_own_c; [exact I'|simpl; auto]).
    destruct (own_residual _ _ _ _ _ I' Kh') as (q1 & x1 & E1 & E2 & E3). simpl in E1.
    rewrite nth_error_replace, Nat.eqb_refl in E1.
    rewrite (proj2 (Nat.ltb_lt _ _)) in E1 by (eapply nth_error_lt; eauto). inversion E1; subst q1.
    assert (K2 : In h' (constraint_handles sk2)) by (eapply known_own_c; [exact I2|simpl; auto]).
    destruct (own_residual _ _ _ _ _ I2 K2) as (q2 & x2 & F1 & F2 & F3).
    rewrite E3, F3. f_equal.
    assert (Q : sk2 = Sketch (sk_id skp) (sk_items skp) (sk_relations skp ++ [q']) (sk_fixed skp) /\
                ch_id h' = length (sk_relations skp)).
    { rewrite Ht in Ew.
      inversion S2; subst; try (destruct c; discriminate).
      destruct c; try discriminate; inversion W; subst; cbn [spec_call] in H0; unfold add_relation in H0;
      destruct (relation_ok _ _) in H0; try discriminate; inversion H0; subst; simpl in Ct; inversion Ct as [Ct'];
      destruct q; try discriminate; simpl in Ew; inversion Ew; subst; unfold call_ids in Ci; simpl in Ci;
      inversion Ci; subst; auto. }
    destruct Q as [-> Q2]. rewrite Q2 in F1. simpl in F1. rewrite nth_error_app2, Nat.sub_diag in F1 by lia.
    inversion F1; subst q2. simpl in E2, F2. unfold skp in E2. rewrite (residual_items _ (sk_id sk) _ _ ((replace (sk_relations sk) (ch_id h) q') ++ [q']) _ (sk_fixed sk)) in E2.
    unfold skp in F2. simpl in F2. congruence.
  Qed.

  Lemma parameter_local env id l s h x s' r : env_ok env -> history env id l s ->
    allowed l (UpdateParameter h x) -> step env (UpdateParameter h x) s = Done (s', r) ->
    (forall k, In (RConstraint k) (map snd l) -> k <> h ->
       constraint_residual k s' = constraint_residual k s) /\
    (forall e, In (RElement e) (map snd l) -> get_value e s' = get_value e s).
  Proof.
    intros EO H A H1. split.
    - intros k K Nk. destruct (history_inv _ _ _ _ EO H) as [sk I].
      destruct (inv_history_step _ _ _ _ _ _ _ _ EO I A H1) as (sk' & S & I').
      assert (K1 : In k (constraint_handles sk)) by (eapply known_own_c; eauto).
      assert (K2 : In k (constraint_handles sk')) by (eapply known_own_c; [exact I'|simpl; auto]).
      assert (K3 : In h (constraint_handles sk)) by (eapply known_own_c; eauto; apply A; simpl; auto).
      destruct (own_residual _ _ _ _ _ I K1) as (q1 & x1 & E1 & E2 & E3).
      destruct (own_residual _ _ _ _ _ I' K2) as (q2 & x2 & F1 & F2 & F3).
      rewrite E3, F3. f_equal. inversion S; subst. simpl in H0.
      destruct (nth_error (sk_relations sk) (ch_id h)) as [q|] eqn:Hq; [|discriminate].
      destruct (with_parameter (ch_tag h) x q) as [q'|] eqn:Ew; [|discriminate]. inversion H0; subst. clear H0.
      simpl in F1. rewrite nth_error_replace in F1.
      destruct (Nat.eqb_spec (ch_id h) (ch_id k)) as [E|].
      + exfalso. apply Nk. apply in_constraint_handles in K1, K3.
        destruct K1 as (a & A1 & A2 & A3), K3 as (b & B1 & B2 & B3). destruct h, k; simpl in *; subst.
        rewrite A1 in B1. inversion B1; subst. auto.
      + rewrite E1 in F1. inversion F1; subst q2. change (residual_of sk q1 = Some x2) in F2. congruence.
    - intros e K. eapply value_step; eauto; try discriminate.
  Qed.

  (** ** Residuals *)
  Definition call_relation (c : call F) : option (relation F) :=
    match c with
    | CreateCoincidence p q => Some (Coincide (eh_id p) (eh_id q))
    | CreatePointPointDistance p q d => Some (Distance (eh_id p) (eh_id q) d)
    | CreatePointPointPointAngle p q r a => Some (Angle (eh_id p) (eh_id q) (eh_id r) a)
    | CreatePointLineIncidence p l => Some (OnLine (eh_id p) (eh_id l))
    | CreatePointLineDistance p l d => Some (LineDistance (eh_id p) (eh_id l) d)
    | CreatePointCircleIncidence p c => Some (OnCircle (eh_id p) (eh_id c))
    | CreateSegmentSegmentLengthEquality a b c d => Some (SameLength (eh_id a) (eh_id b) (eh_id c) (eh_id d))
    | CreateLineLineAngle k l a => Some (LineAngle (eh_id k) (eh_id l) a)
    | CreateLineLineParallelism k l => Some (Parallel (eh_id k) (eh_id l))
    | CreateLineLinePerpendicularity k l => Some (Perpendicular (eh_id k) (eh_id l))
    | CreateLineCircleTangency l c => Some (Tangent (eh_id l) (eh_id c))
    | _ => None
    end.

  Lemma chandle_eq sk h k : In h (constraint_handles sk) -> In k (constraint_handles sk) -> ch_id h = ch_id k -> h = k.
  Proof.
    intros H K E. apply in_constraint_handles in H, K.
    destruct H as (a & A1 & A2 & A3), K as (b & B1 & B2 & B3). destruct h, k; simpl in *; subst.
    rewrite A1 in B1. inversion B1; subst. auto.
  Qed.

  (** Relations are the current calls *)
  Lemma history_relations env id l s : env_ok env -> history env id l s ->
    exists sk, inv id l s sk /\
    forall k q, In k (constraint_handles sk) -> nth_error (sk_relations sk) (ch_id k) = Some q ->
      exists c, current_call l k = Some c /\ call_relation c = Some q /\
        (forall h t, In (h, t) (call_elements c) -> In (RElement h) (map snd l)) .
  Proof.
    intros EO H. induction H as [|l s c s' r H IH A Hs].
    - destruct (history_inv env id [] (system_new id) EO (h_new _ _)) as [sk I]. exists sk. split; auto.
      intros k q K. rewrite <- (iv_ch _ _ _ _ I) in K. destruct K.
    - destruct IH as (sk & I & IH).
      destruct (inv_history_step _ _ _ _ _ _ _ _ EO I A Hs) as (sk' & S & I').
      exists sk'. split; auto. intros k q K Hq.
      assert (Old : sk_relations sk' = sk_relations sk ->
        (forall h, r <> RConstraint h) -> (forall h x, c <> UpdateParameter h x) ->
        exists c0, current_call ((c, r) :: l) k = Some c0 /\ call_relation c0 = Some q /\
        (forall h t, In (h, t) (call_elements c0) -> In (RElement h) (map snd ((c, r) :: l)))).
      { intros Er Nr Nu. rewrite Er in Hq.
        assert (K0 : In k (constraint_handles sk)).
        { rewrite <- (iv_ch _ _ _ _ I'), created_constraints_cons in K. rewrite <- (iv_ch _ _ _ _ I).
          destruct r; try (now rewrite app_nil_r in K). exfalso; eapply Nr; eauto. }
        destruct (IH _ _ K0 Hq) as (c0 & C1 & C2 & C3). exists c0.
        assert (Ec : current_call ((c, r) :: l) k = current_call l k).
        { destruct c; try (exfalso; eapply Nu; reflexivity); destruct r; auto; exfalso; eapply Nr; reflexivity. }
        rewrite Ec. split; [auto|]. split; [auto|]. intros h t Hin. right. eapply C3; eauto. }
      inversion S; subst.
      2: apply Old; [auto|intros; discriminate|intros; discriminate].
      2,3: apply Old; [match goal with S : solved _ _ |- _ => apply S | S : solved_assembly _ _ |- _ => apply S end
        |intros; discriminate|intros; discriminate].
      assert (New : forall q0, sk' = Sketch (sk_id sk) (sk_items sk) (sk_relations sk ++ [q0]) (sk_fixed sk) ->
        call_relation c = Some q0 -> r = RConstraint (CHandle (sk_id sk) (length (sk_relations sk)) (relation_tag q0)) ->
        exists c0, current_call ((c, r) :: l) k = Some c0 /\ call_relation c0 = Some q /\
        (forall h t, In (h, t) (call_elements c0) -> In (RElement h) (map snd ((c, r) :: l)))).
      { intros q0 Esk Ec Er.
        set (kn := CHandle (sk_id sk) (length (sk_relations sk)) (relation_tag q0)) in *.
        assert (Kn : In kn (constraint_handles sk')) by (eapply known_own_c; [exact I'|subst r; simpl; auto]).
        assert (El : current_call ((c, r) :: l) k = if chandle_dec kn k then Some c else current_call l k).
        { subst r. destruct c; try discriminate; reflexivity. }
        rewrite El. rewrite Esk in Hq. simpl in Hq. destruct (chandle_dec kn k) as [<-|Nk].
        - exists c. simpl in Hq. rewrite nth_error_app2, Nat.sub_diag in Hq by lia. inversion Hq; subst q0.
          split; [auto|]. split; [auto|]. intros h t Hin. right. eapply (proj1 A); eauto.
        - assert (K0 : In k (constraint_handles sk)).
          { rewrite <- (iv_ch _ _ _ _ I'), created_constraints_cons, Er in K. rewrite <- (iv_ch _ _ _ _ I).
            apply in_app_iff in K. destruct K as [K|[K|[]]]; [auto|contradiction]. }
          assert (Kl := K0). apply in_constraint_handles in Kl. destruct Kl as (q1 & Hq1 & _).
          rewrite (nth_error_app_old _ _ _ _ Hq1) in Hq. inversion Hq; subst q1.
          destruct (IH _ _ K0 Hq1) as (c0 & C1 & C2 & C3). exists c0. split; [auto|]. split; [auto|].
          intros h t Hin. right. eapply C3; eauto. }
      destruct c; cbn [spec_call] in H0;
      try (unfold add_item in H0; inversion H0; subst; apply Old; [auto|intros; discriminate|intros; discriminate]);
      try (destruct (_ && _)%bool in H0; [|discriminate]; unfold add_item in H0; inversion H0; subst;
           apply Old; [auto|intros; discriminate|intros; discriminate]);
      try (unfold add_relation in H0; destruct (relation_ok _ _) in H0; [|discriminate]; inversion H0; subst;
           (eapply New; [reflexivity|reflexivity|reflexivity]));
      try (destruct (has_tag _ _ _) in H0; [|discriminate]; inversion H0; subst;
           apply Old; [auto|intros; discriminate|intros; discriminate]);
      try (inversion H0; subst; apply Old; [auto|intros; discriminate|intros; discriminate]).
      + (* UpdateParameter *)
        destruct (nth_error (sk_relations sk) (ch_id h)) as [q0|] eqn:Hq0; [|discriminate].
        destruct (with_parameter (ch_tag h) x q0) as [q'|] eqn:Ew; [|discriminate]. inversion H0; subst. clear H0.
        assert (K0 : In k (constraint_handles sk)).
        { rewrite <- (iv_ch _ _ _ _ I'), created_constraints_cons, app_nil_r in K. now rewrite <- (iv_ch _ _ _ _ I). }
        assert (Kh : In h (constraint_handles sk)) by (eapply known_own_c; eauto; apply A; simpl; auto).
        simpl in Hq. rewrite nth_error_replace in Hq. cbn [current_call].
        destruct (chandle_dec h k) as [<-|Nk].
        * rewrite Nat.eqb_refl, (proj2 (Nat.ltb_lt _ _)) in Hq by (eapply nth_error_lt; eauto).
          inversion Hq; subst q'. destruct (IH _ _ K0 Hq0) as (c0 & C1 & C2 & C3). rewrite C1.
          assert (exists c1, with_new_parameter c0 x = Some c1 /\ call_relation c1 = Some q /\ call_elements c1 = call_elements c0) as (c1 & D1 & D2 & D3).
          { destruct c0; try discriminate; inversion C2; subst; destruct (ch_tag h); try discriminate; simpl in Ew; inversion Ew; subst; simpl; eauto. }
          exists c1. split; [auto|]. split; [auto|]. rewrite D3. intros h0 t Hin. right. eapply C3; eauto.
        * destruct (Nat.eqb_spec (ch_id h) (ch_id k)) as [E|]; [exfalso; apply Nk; eapply chandle_eq; eauto|].
          destruct (IH _ _ K0 Hq) as (c0 & C1 & C2 & C3). exists c0. split; [auto|]. split; [auto|].
          intros h0 t Hin. right. eapply C3; eauto.
      + destruct (_ && _)%bool in H0; [|discriminate]. destruct (value_of _ _) in H0; [|discriminate].
        inversion H0; subst; apply Old; [auto|intros; discriminate|intros; discriminate].
      + destruct (nth_error _ _) in H0; [|discriminate]. destruct (N.eqb _ _) in H0; [|discriminate].
        destruct (residual_of _ _) in H0; [|discriminate].
        inversion H0; subst; apply Old; [auto|intros; discriminate|intros; discriminate].
      + discriminate.
      + discriminate.
  Qed.

  Lemma read_value id l s sk h : inv id l s sk -> In (RElement h) (map snd l) -> read s h = value_of sk (eh_id h).
  Proof.
    intros I K. apply (known_own _ _ _ _ _ I) in K. unfold read.
    pose proof (get_own _ _ _ (iv_models _ _ _ _ I) K) as Q. destruct (value_of sk (eh_id h)); [now rewrite Q|contradiction].
  Qed.
  Lemma point_of_value sk i : point_of sk i = match value_of sk i with Some (VPoint p) => Some p | _ => None end.
  Proof.
    unfold value_of. destruct (nth_error (sk_items sk) i) as [[| | |]|] eqn:E; try (unfold point_of; rewrite E; auto; fail).
    - unfold point_of; rewrite E. destruct (line_of sk i); auto.
    - unfold point_of; rewrite E. destruct (circle_of sk i); auto.
  Qed.
  Lemma line_of_value sk i : line_of sk i = match value_of sk i with Some (VLine p q) => Some (p, q) | _ => None end.
  Proof.
    unfold value_of. destruct (nth_error (sk_items sk) i) as [[| | |]|] eqn:E; try (unfold line_of; rewrite E; auto; fail).
    - destruct (line_of sk i) as [[p0 q0]|]; auto.
    - unfold line_of; rewrite E. destruct (circle_of sk i); auto.
  Qed.
  Lemma circle_of_value sk i : circle_of sk i = match value_of sk i with Some (VCircle p q) => Some (p, q) | _ => None end.
  Proof.
    unfold value_of. destruct (nth_error (sk_items sk) i) as [[| | |]|] eqn:E; try (unfold circle_of; rewrite E; auto; fail).
    - unfold circle_of; rewrite E. destruct (line_of sk i); auto.
    - destruct (circle_of sk i) as [[p0 q0]|]; auto.
  Qed.

  Lemma residual_meaning env id l s k : env_ok env -> history env id l s ->
    In (RConstraint k) (map snd l) ->
    exists c x, current_call l k = Some c /\ call_residual c (read s) = Some x /\
      constraint_residual k s = Done x.
  Proof.
    intros EO H K. destruct (history_relations _ _ _ _ EO H) as (sk & I & R).
    assert (Kc := known_own_c _ _ _ _ _ I K).
    destruct (own_residual _ _ _ _ _ I Kc) as (q & x & Hq & Hx & Hr).
    destruct (R _ _ Kc Hq) as (c & C1 & C2 & C3). exists c, x. split; [auto|]. split; [|auto].
    rewrite <- Hx.
    assert (V : forall h t, In (h, t) (call_elements c) -> read s h = value_of sk (eh_id h)).
    { intros h t Hin. eapply read_value; eauto. }
    destruct c; simpl in C2; try discriminate; inversion C2; subst; cbn [call_residual residual_of];
      rewrite ?point_of_value, ?line_of_value, ?circle_of_value; simpl in V;
      repeat match goal with |- context [read s ?h] => rewrite (V h _ ltac:(eauto 10)) end;
      repeat match goal with |- context [match value_of sk ?h with _ => _ end] => destruct (value_of sk h) as [[?|[? ?]|[? ?] [? ?]|[? ?] ?]|] end; auto.
  Qed.

  Lemma solve_residuals env id l s o s' r k : env_ok env -> history env id l s ->
    step env (Solve o) s = Done (s', r) -> In (RConstraint k) (map snd l) ->
    exists c x x', current_call l k = Some c /\
      call_residual c (read s) = Some x /\ constraint_residual k s = Done x /\
      call_residual c (read s') = Some x' /\ constraint_residual k s' = Done x'.
  Proof.
    intros EO H S K. destruct (residual_meaning _ _ _ _ _ EO H K) as (c & x & C1 & C2 & C3).
    assert (H' : history env id ((Solve o, r) :: l) s').
    { econstructor; eauto. repeat split; simpl; intros; contradiction. }
    destruct (residual_meaning _ _ _ _ k EO H') as (c' & x' & D1 & D2 & D3); [simpl; auto|].
    exists c, x, x'. simpl in S. unfold ret_unit in S. apply obind_done in S. destruct S as (s1 & _ & S).
    inversion S; subst. simpl in D1. rewrite C1 in D1. inversion D1; subst. auto.
  Qed.
End Api.
