(** What a log of calls says about the sketch. *)
From Coq Require Import List Arith NArith ZArith Lia Bool Permutation.
From Verif Require Import Num Outcome Lib ModelExpr ModelGraph ModelSystem ModelMatching ModelSolve
  ModelNumerical ModelApi Spec_Sketch Spec_Solver Spec_History
  Proofs_Graph Proofs_System Proofs_Calls Proofs_Analyze Proofs_Solve Proofs_Safe Proofs_Step.
Import ListNotations.

Section Hist.
  Context {F : Type} {NF : Num F}.
  Implicit Types (s : system F) (sk : sketch F) (env : solver_env F) (l : log F).

  Definition same_shape (r r' : relation F) : Prop :=
    relation_tag r' = relation_tag r /\ relation_items r' = relation_items r.

  (** The constraint kind a call creates *)
  Definition call_tag (c : call F) : option constraint_tag :=
    match c with
    | CreateCoincidence _ _ => Some CPointPointCoincidence
    | CreatePointPointDistance _ _ _ => Some CPointPointDistance
    | CreatePointPointPointAngle _ _ _ _ => Some CPointPointPointAngle
    | CreatePointLineIncidence _ _ => Some CPointLineIncidence
    | CreatePointLineDistance _ _ _ => Some CPointLineDistance
    | CreatePointCircleIncidence _ _ => Some CPointCircleIncidence
    | CreateSegmentSegmentLengthEquality _ _ _ _ => Some CSegmentSegmentLengthEquality
    | CreateLineLineAngle _ _ _ => Some CLineLineAngle
    | CreateLineLineParallelism _ _ => Some CLineLineParallelism
    | CreateLineLinePerpendicularity _ _ => Some CLineLinePerpendicularity
    | CreateLineCircleTangency _ _ => Some CLineCircleTangency
    | _ => None
    end.
  Definition call_ids (c : call F) : list nat := map (fun ht => eh_id (fst ht)) (call_elements c).

  Definition item_parts (id : N) (h : ehandle) (it : item F) : list ehandle :=
    match it with
    | ILine p q => [EHandle id p TPoint; EHandle id q TPoint]
    | ICircle c r => [EHandle id c TPoint; EHandle id r TLength]
    | _ => [h]
    end.

  Record inv (id : N) l s sk : Prop := {
    iv_models : models s sk;
    iv_id : sk_id sk = id;
    iv_eh : created_elements l = element_handles sk;
    iv_ch : created_constraints l = constraint_handles sk;
    iv_parts : forall h it, nth_error (sk_items sk) (eh_id h) = Some it ->
      eh_system h = id -> eh_tag h = item_tag it -> parts l h = item_parts id h it;
    iv_fixed : forall h k x, coord_value sk (eh_id h, k) = Some x -> In h (element_handles sk) ->
      (In (eh_id h, k) (sk_fixed sk) <-> is_fixed l h = true);
    iv_con : forall c k, In (c, RConstraint k) l -> exists r,
      nth_error (sk_relations sk) (ch_id k) = Some r /\ call_tag c = Some (relation_tag r) /\
      relation_items r = call_ids c;
    iv_con' : forall j r, nth_error (sk_relations sk) j = Some r -> exists c k,
      In (c, RConstraint k) l /\ relation_items r = call_ids c;
    iv_latest : no_solve l -> forall h it, nth_error (sk_items sk) (eh_id h) = Some it ->
      In h (element_handles sk) ->
      match it with
      | IPoint x y => latest l h = Some (VPoint (x, y))
      | ILength x => latest l h = Some (VLength x)
      | _ => True
      end;
    iv_line : forall c h, In (c, RElement h) l ->
      match c with
      | CreateLine p q => nth_error (sk_items sk) (eh_id h) = Some (ILine (eh_id p) (eh_id q))
      | CreateCircle p q => nth_error (sk_items sk) (eh_id h) = Some (ICircle (eh_id p) (eh_id q))
      | _ => True
      end;
    iv_known : forall c r, In (c, r) l -> forall h t, In (h, t) (call_elements c) ->
      In h (element_handles sk) /\ forall t', t = Some t' -> eh_tag h = t'
  }.

  (** ** Handles *)
  Lemma in_element_handles sk h : In h (element_handles sk) <->
    exists it, nth_error (sk_items sk) (eh_id h) = Some it /\ eh_system h = sk_id sk /\
      eh_tag h = item_tag it.
  Proof.
    unfold element_handles. rewrite in_map_iff. split.
    - intros (i & <- & Hi). apply in_seq in Hi. simpl.
      destruct (nth_error_ex (sk_items sk) i) as [it Hit]; [lia|]. rewrite Hit. eauto.
    - intros (it & Hit & Hs & Ht). exists (eh_id h). rewrite Hit. split.
      + destruct h; simpl in *; congruence.
      + apply in_seq. apply nth_error_lt in Hit. lia.
  Qed.
  Lemma in_constraint_handles sk h : In h (constraint_handles sk) <->
    exists r, nth_error (sk_relations sk) (ch_id h) = Some r /\ ch_system h = sk_id sk /\
      ch_tag h = relation_tag r.
  Proof.
    unfold constraint_handles. rewrite in_map_iff. split.
    - intros (i & <- & Hi). apply in_seq in Hi. simpl.
      destruct (nth_error_ex (sk_relations sk) i) as [it Hit]; [lia|]. rewrite Hit. eauto.
    - intros (it & Hit & Hs & Ht). exists (ch_id h). rewrite Hit. split.
      + destruct h; simpl in *; congruence.
      + apply in_seq. apply nth_error_lt in Hit. lia.
  Qed.

  Lemma shape_tag (a b : item F) : item_shape_eq a b -> item_tag b = item_tag a.
  Proof. destruct a, b; simpl; tauto. Qed.
  Lemma shape_nth (xs ys : list (item F)) i : Forall2 item_shape_eq xs ys ->
    match nth_error xs i, nth_error ys i with
    | Some a, Some b => item_shape_eq a b
    | None, None => True
    | _, _ => False
    end.
  Proof.
    intros H. pose proof (Forall2_length _ _ _ H) as L.
    destruct (nth_error xs i) eqn:E1, (nth_error ys i) eqn:E2; auto.
    - eapply Forall2_nth; eauto.
    - apply nth_error_lt in E1. apply nth_error_None in E2. lia.
    - apply nth_error_lt in E2. apply nth_error_None in E1. lia.
  Qed.
  Lemma shape_list_refl (xs : list (item F)) : Forall2 item_shape_eq xs xs.
  Proof. induction xs; constructor; auto. apply shape_refl. Qed.
  Lemma element_handles_shape sk sk' : sk_id sk' = sk_id sk ->
    Forall2 item_shape_eq (sk_items sk) (sk_items sk') ->
    element_handles sk' = element_handles sk.
  Proof.
    intros E H. unfold element_handles. rewrite <- (Forall2_length _ _ _ H). apply map_ext.
    intros i. rewrite E. pose proof (shape_nth _ _ i H) as Q.
    destruct (nth_error (sk_items sk) i), (nth_error (sk_items sk') i); try contradiction; auto.
    f_equal. now apply shape_tag.
  Qed.
  Lemma element_handles_add sk it r fx : 
    element_handles (Sketch (sk_id sk) (sk_items sk ++ [it]) r fx) =
    element_handles sk ++ [EHandle (sk_id sk) (length (sk_items sk)) (item_tag it)].
  Proof.
    unfold element_handles. simpl. rewrite app_length, Nat.add_1_r, seq_S, map_app. simpl.
    f_equal.
    - apply map_ext_in. intros i Hi. apply in_seq in Hi. rewrite nth_error_app1 by lia. auto.
    - rewrite nth_error_app2, Nat.sub_diag by lia. auto.
  Qed.
  Lemma constraint_handles_shape sk sk' : sk_id sk' = sk_id sk ->
    Forall2 same_shape (sk_relations sk) (sk_relations sk') ->
    constraint_handles sk' = constraint_handles sk.
  Proof.
    intros E H. unfold constraint_handles. pose proof (Forall2_length _ _ _ H) as L. rewrite <- L.
    apply map_ext_in. intros i Hi. apply in_seq in Hi. rewrite E.
    destruct (nth_error_ex (sk_relations sk) i) as [a Ha]; [lia|].
    destruct (nth_error_ex (sk_relations sk') i) as [b Hb]; [lia|].
    rewrite Ha, Hb. f_equal. apply (Forall2_nth _ _ _ _ _ _ H Ha Hb).
  Qed.
  Lemma constraint_handles_add sk it r fx : 
    constraint_handles (Sketch (sk_id sk) it (sk_relations sk ++ [r]) fx) =
    constraint_handles sk ++ [CHandle (sk_id sk) (length (sk_relations sk)) (relation_tag r)].
  Proof.
    unfold constraint_handles. simpl. rewrite app_length, Nat.add_1_r, seq_S, map_app. simpl.
    f_equal.
    - apply map_ext_in. intros i Hi. apply in_seq in Hi. rewrite nth_error_app1 by lia. auto.
    - rewrite nth_error_app2, Nat.sub_diag by lia. auto.
  Qed.
  Lemma same_shape_refl (rs : list (relation F)) : Forall2 same_shape rs rs.
  Proof. induction rs; constructor; auto. split; auto. Qed.

  Lemma created_elements_cons l c r :
    created_elements ((c, r) :: l) =
    created_elements l ++ match r with RElement h => [h] | _ => [] end.
  Proof.
    unfold created_elements. simpl. rewrite flat_map_app. simpl. now rewrite app_nil_r.
  Qed.
  Lemma created_constraints_cons l c r :
    created_constraints ((c, r) :: l) =
    created_constraints l ++ match r with RConstraint h => [h] | _ => [] end.
  Proof.
    unfold created_constraints. simpl. rewrite flat_map_app. simpl. now rewrite app_nil_r.
  Qed.
  Lemma in_created_elements l h : In h (created_elements l) <-> In (RElement h) (map snd l).
  Proof.
    unfold created_elements. rewrite in_flat_map, in_map_iff. split.
    - intros ([c r] & Hin & H). apply in_rev in Hin. exists (c, r). simpl in *.
      destruct r; simpl in H; try contradiction. destruct H as [->|[]]. auto.
    - intros ([c r] & E & Hin). simpl in E. subst. exists (c, RElement h). split; [now apply -> in_rev|simpl; auto].
  Qed.
  Lemma in_created_constraints l h : In h (created_constraints l) <-> In (RConstraint h) (map snd l).
  Proof.
    unfold created_constraints. rewrite in_flat_map, in_map_iff. split.
    - intros ([c r] & Hin & H). apply in_rev in Hin. exists (c, r). simpl in *.
      destruct r; simpl in H; try contradiction. destruct H as [->|[]]. auto.
    - intros ([c r] & E & Hin). simpl in E. subst. exists (c, RConstraint h). split; [now apply -> in_rev|simpl; auto].
  Qed.

  Lemma known_own id l s sk h : inv id l s sk -> In (RElement h) (map snd l) -> In h (element_handles sk).
  Proof. intros I H. rewrite <- (iv_eh _ _ _ _ I). now apply in_created_elements. Qed.
  Lemma known_own_c id l s sk h : inv id l s sk -> In (RConstraint h) (map snd l) -> In h (constraint_handles sk).
  Proof. intros I H. rewrite <- (iv_ch _ _ _ _ I). now apply in_created_constraints. Qed.

  Lemma handle_eq sk h h' : In h (element_handles sk) -> In h' (element_handles sk) ->
    eh_id h = eh_id h' -> h = h'.
  Proof.
    rewrite !in_element_handles. intros (it & A1 & A2 & A3) (it' & B1 & B2 & B3) E.
    destruct h, h'; simpl in *; subst. rewrite A1 in B1. inversion B1; subst. auto.
  Qed.

  (** ** The three kinds of step *)
  Definition plain (c : call F) : Prop :=
    match c with
    | CreateLength _ | CreatePoint _ _ | CreateLine _ _ | CreateCircle _ _ => False
    | Fix _ | Unfix _ => False
    | _ => call_tag c = None
    end.

  Lemma fixed_step l c r p : (forall h, c <> Fix h) -> (forall h, c <> Unfix h) ->
    is_fixed ((c, r) :: l) p = is_fixed l p.
  Proof. intros H1 H2. destruct c; simpl; auto; [now destruct (H1 h)|now destruct (H2 h)]. Qed.
  Lemma parts_step l c r h : (forall a b, c <> CreateLine a b) -> (forall a b, c <> CreateCircle a b) ->
    parts ((c, r) :: l) h = parts l h.
  Proof.
    intros H1 H2. destruct c; simpl; auto; [now destruct (H1 point1 point2)|now destruct (H2 center radius)].
  Qed.
  Lemma parts_ret l c r h : (forall h', r <> RElement h') -> parts ((c, r) :: l) h = parts l h.
  Proof. intros H1. destruct c; simpl; auto; destruct r; auto; now destruct (H1 h0). Qed.

  Lemma coord_shape sk sk' c : Forall2 item_shape_eq (sk_items sk) (sk_items sk') ->
    (exists x, coord_value sk' c = Some x) -> exists x, coord_value sk c = Some x.
  Proof.
    intros H [x Hx]. unfold coord_value in *. pose proof (shape_nth _ _ (fst c) H) as Q.
    destruct (nth_error (sk_items sk) (fst c)) as [a|], (nth_error (sk_items sk') (fst c)) as [b|];
      try contradiction; try discriminate.
    destruct a, b; simpl in Q; try contradiction; destruct (snd c) as [|[|]]; try discriminate; eauto.
  Qed.

  (** A step that keeps items up to values, and relations up to parameters *)
  Lemma inv_shape id l s sk c r s' sk' : inv id l s sk -> allowed l c ->
    models s' sk' -> sk_id sk' = sk_id sk ->
    Forall2 item_shape_eq (sk_items sk) (sk_items sk') ->
    Forall2 same_shape (sk_relations sk) (sk_relations sk') ->
    (forall h, r <> RElement h) -> (forall k, r <> RConstraint k) ->
    (forall h k x, coord_value sk (eh_id h, k) = Some x -> In h (element_handles sk) ->
      (In (eh_id h, k) (sk_fixed sk') <-> is_fixed ((c, r) :: l) h = true)) ->
    (no_solve ((c, r) :: l) -> forall h it, nth_error (sk_items sk') (eh_id h) = Some it ->
      In h (element_handles sk) ->
      match it with
      | IPoint x y => latest ((c, r) :: l) h = Some (VPoint (x, y))
      | ILength x => latest ((c, r) :: l) h = Some (VLength x)
      | _ => True
      end) ->
    inv id ((c, r) :: l) s' sk'.
  Proof.
    intros I A M' Eid HI HR Re Rc Hf Hl.
    assert (EH : element_handles sk' = element_handles sk) by (apply element_handles_shape; auto).
    assert (CH : constraint_handles sk' = constraint_handles sk) by (apply constraint_handles_shape; auto).
    constructor; auto.
    - rewrite Eid; apply I.
    - rewrite created_elements_cons, EH, (iv_eh _ _ _ _ I). destruct r; try now rewrite app_nil_r. now destruct (Re h).
    - rewrite created_constraints_cons, CH, (iv_ch _ _ _ _ I). destruct r; try now rewrite app_nil_r. now destruct (Rc h).
    - intros h it Hit Hs Ht. rewrite parts_ret by auto.
      pose proof (shape_nth _ _ (eh_id h) HI) as Q. rewrite Hit in Q.
      destruct (nth_error (sk_items sk) (eh_id h)) as [a|] eqn:Ea; [|contradiction].
      rewrite (iv_parts _ _ _ _ I h a Ea Hs) by (rewrite Ht; now apply shape_tag).
      destruct a, it; simpl in Q; try contradiction; auto; destruct Q as [-> ->]; auto.
    - intros h k x Hx Hh. rewrite EH in Hh.
      destruct (coord_shape _ _ _ HI (ex_intro _ x Hx)) as [x' Hx']. eauto.
    - intros c' k [E|Hin]; [inversion E; subst; now destruct (Rc k)|].
      destruct (iv_con _ _ _ _ I _ _ Hin) as (q & Hq & H1 & H2).
      destruct (nth_error_ex (sk_relations sk') (ch_id k)) as [q' Hq'].
      { rewrite <- (Forall2_length _ _ _ HR). eapply nth_error_lt; eauto. }
      destruct (Forall2_nth _ _ _ _ _ _ HR Hq Hq') as [T1 T2].
      exists q'. split; auto. split; congruence.
    - intros j q' Hq'. destruct (nth_error_ex (sk_relations sk) j) as [q Hq].
      { rewrite (Forall2_length _ _ _ HR). eapply nth_error_lt; eauto. }
      destruct (Forall2_nth _ _ _ _ _ _ HR Hq Hq') as [T1 T2].
      destruct (iv_con' _ _ _ _ I _ _ Hq) as (c' & k & Hin & E). exists c', k. split; [right; auto|congruence].
    - intros N h it Hit Hh. rewrite EH in Hh. exact (Hl N h it Hit Hh).
    - intros c' h [E|Hin]; [inversion E; subst; now destruct (Re h)|].
      pose proof (iv_line _ _ _ _ I _ _ Hin) as Q.
      pose proof (shape_nth _ _ (eh_id h) HI) as S.
      destruct c'; auto; rewrite Q in S; destruct (nth_error (sk_items sk') (eh_id h)) as [[]|]; simpl in S;
        try contradiction; destruct S as [-> ->]; auto.
    - intros c' r' [E|Hin] h t Hh; rewrite EH.
      + inversion E; subst. destruct (proj1 A h t Hh) as [B1 B2]. split; auto. eapply known_own; eauto.
      + eapply (iv_known _ _ _ _ I); eauto.
  Qed.

  (** A step that adds an item *)
  Lemma inv_add_item id l s sk c s' it : inv id l s sk -> allowed l c ->
    let sk' := Sketch (sk_id sk) (sk_items sk ++ [it]) (sk_relations sk) (sk_fixed sk) in
    let h0 := EHandle (sk_id sk) (length (sk_items sk)) (item_tag it) in
    models s' sk' ->
    match it with
    | ILength x => c = CreateLength x
    | IPoint x y => c = CreatePoint x y
    | ILine p q => exists hp hq, c = CreateLine hp hq /\ p = eh_id hp /\ q = eh_id hq
    | ICircle p q => exists hp hq, c = CreateCircle hp hq /\ p = eh_id hp /\ q = eh_id hq
    end ->
    (forall k, In (length (sk_items sk), k) (sk_fixed sk) -> False) ->
    inv id ((c, RElement h0) :: l) s' sk'.
  Proof.
    intros I A sk' h0 M' Hc Hfx.
    assert (EH : element_handles sk' = element_handles sk ++ [h0]) by apply element_handles_add.
    assert (Hnew : ~ In h0 (element_handles sk)).
    { rewrite in_element_handles. simpl. intros (it' & Hit & _). apply nth_error_lt in Hit. lia. }
    assert (Cf : (forall h, c <> Fix h) /\ (forall h, c <> Unfix h)).
    { split; intros h E; subst c; destruct it; try discriminate; destruct Hc as (? & ? & ? & _); discriminate. }
    assert (Ct : call_tag c = None /\ forall o, c <> Solve o).
    { destruct it; try (subst c; split; [reflexivity|intros o; discriminate]);
      destruct Hc as (? & ? & -> & _); (split; [reflexivity|intros o; discriminate]). }
    assert (Old : forall h it', nth_error (sk_items sk) (eh_id h) = Some it' -> h0 <> h).
    { intros h it' H <-. simpl in H. apply nth_error_lt in H. lia. }
    assert (Nh : forall h it', nth_error (sk_items sk') (eh_id h) = Some it' ->
       nth_error (sk_items sk) (eh_id h) = Some it' \/ (eh_id h = length (sk_items sk) /\ it' = it)).
    { intros h it' H. simpl in H. apply nth_error_snoc in H. tauto. }
    assert (Lst : forall h, h0 <> h -> latest ((c, RElement h0) :: l) h = latest l h).
    { intros h Hne. destruct it;
       [subst c; cbn [latest]; destruct (ehandle_dec h0 h); [contradiction|auto]
       |subst c; cbn [latest]; destruct (ehandle_dec h0 h); [contradiction|auto]
       |destruct Hc as (? & ? & -> & _); auto|destruct Hc as (? & ? & -> & _); auto]. }
    assert (Prt : forall h, h0 <> h -> parts ((c, RElement h0) :: l) h = parts l h).
    { intros h Hne. destruct it; [subst c; reflexivity|subst c; reflexivity| |];
       destruct Hc as (? & ? & -> & _); cbn [parts]; (destruct (ehandle_dec h0 h); [contradiction|auto]). }
    (* the log does not know the new handle *)
    assert (Fresh : forall c' r', In (c', r') l -> r' <> RElement h0).
    { intros c' r' Hin ->. apply Hnew. eapply known_own; eauto. apply in_map_iff. exists (c', RElement h0). auto. }
    assert (Pnew : parts l h0 = [h0]).
    { clear -Fresh. induction l as [|[c' r'] l IH]; simpl; auto.
      assert (IH' : parts l h0 = [h0]) by (apply IH; intros; eapply Fresh; right; eauto).
      destruct c'; auto; destruct r'; auto; destruct (ehandle_dec h h0) as [->|]; auto;
      exfalso; (eapply Fresh; [left; reflexivity|reflexivity]). }
    assert (NoFix : is_fixed l h0 = false).
    { assert (K : forall c' r', In (c', r') l -> forall h t, In (h, t) (call_elements c') -> In h (element_handles sk))
        by (intros; eapply (iv_known _ _ _ _ I); eauto).
      assert (Q : forall l', (exists pre, l = pre ++ l') -> is_fixed l' h0 = false).
      { induction l' as [|[c' r'] l' IH]; intros [pre E]; auto.
        assert (IH' : is_fixed l' h0 = false) by (apply IH; exists (pre ++ [(c', r')]); rewrite <- app_assoc; auto).
        assert (Hp : forall h, In h0 (parts l' h) -> h = h0 \/ exists c2 r2 t, In (c2, r2) l' /\ In (h0, t) (call_elements c2)).
        { clear. intros h. induction l' as [|[c2 r2] l' IH]; simpl; [intuition|].
          assert (G : In h0 (parts l' h) -> h = h0 \/ exists c2' r2' t, ((c2, r2) = (c2', r2') \/ In (c2', r2') l') /\ In (h0, t) (call_elements c2')).
          { intros Hin. destruct (IH Hin) as [?|(a & b & t & X & Y)]; auto. right. exists a, b, t. auto. }
          destruct c2; auto; destruct r2; auto; destruct (ehandle_dec h1 h); auto; simpl; intros [->|[->|[]]];
          right; eexists _, _, _; (split; [left; reflexivity|simpl; eauto]). }
        destruct c'; auto; simpl; destruct (in_dec ehandle_dec h0 (parts l' h)) as [Hi|]; auto; exfalso;
        (apply Hp in Hi; destruct Hi as [->|(c2 & r2 & t & X & Y)];
         [apply Hnew; eapply K; [rewrite E; apply in_app_iff; right; left; reflexivity|simpl; eauto]
         |apply Hnew; eapply K; [rewrite E; apply in_app_iff; right; right; eauto|eauto]]). }
      apply Q. exists []. auto. }
    constructor; auto.
    - apply I.
    - rewrite created_elements_cons, EH, (iv_eh _ _ _ _ I). auto.
    - rewrite created_constraints_cons, app_nil_r, (iv_ch _ _ _ _ I). auto.
    - intros h it' Hit Hs Ht. destruct (Nh _ _ Hit) as [Ho|[E ->]].
      + rewrite Prt by eauto. now apply (iv_parts _ _ _ _ I).
      + assert (h = h0). { rewrite <- (iv_id _ _ _ _ I) in Hs. destruct h; simpl in *; subst; auto. }
        subst h. destruct it; try (subst c; simpl; auto); destruct Hc as (hp & hq & -> & -> & ->);
        simpl; destruct (ehandle_dec h0 h0); try contradiction;
        (destruct A as [A _]; cbn [call_elements] in A;
         destruct (A hp _ (or_introl eq_refl)) as [Kp Tp];
         destruct (A hq _ (or_intror (or_introl eq_refl))) as [Kq Tq];
         apply (known_own _ _ _ _ _ I) in Kp, Kq; apply in_element_handles in Kp, Kq;
         destruct Kp as (? & _ & Sp & _), Kq as (? & _ & Sq & _);
         specialize (Tp _ eq_refl); specialize (Tq _ eq_refl); rewrite (iv_id _ _ _ _ I) in Sp, Sq;
         destruct hp, hq; simpl in *; subst; auto).
    - intros h k x Hx Hh. rewrite fixed_step by apply Cf. rewrite EH in Hh. apply in_app_iff in Hh.
      destruct Hh as [Hh|[<-|[]]].
      + apply (iv_fixed _ _ _ _ I) with (x := x); auto. unfold coord_value in *. simpl in Hx.
        apply in_element_handles in Hh. destruct Hh as (it' & Hit & _). simpl.
        rewrite (nth_error_app_old _ _ _ _ Hit) in Hx. rewrite Hit. auto.
      + rewrite NoFix. simpl. split; [|discriminate]. intros H. exfalso. eauto.
    - intros c' k [E|Hin]; [inversion E|]. eapply (iv_con _ _ _ _ I); eauto.
    - intros j q' Hq'. simpl in Hq'. destruct (iv_con' _ _ _ _ I _ _ Hq') as (c' & k & Hin & E).
      exists c', k. split; [right; auto|auto].
    - intros N h it' Hit Hh. assert (N' : no_solve l) by (intros o r Hin; apply (N o r); right; auto).
      rewrite EH in Hh. apply in_app_iff in Hh. destruct Hh as [Hh|[<-|[]]].
      + assert (Hh' := Hh). apply in_element_handles in Hh'. destruct Hh' as (it2 & Hit2 & _).
        simpl in Hit. rewrite (nth_error_app_old _ _ _ _ Hit2) in Hit. inversion Hit; subst it2.
        rewrite Lst by eauto. now apply (iv_latest _ _ _ _ I).
      + simpl in Hit. rewrite nth_error_app2, Nat.sub_diag in Hit by lia. inversion Hit; subst it'.
        destruct it; auto; subst c; simpl; destruct (ehandle_dec h0 h0); auto; contradiction.
    - intros c' h [E|Hin].
      + inversion E; subst c' h. destruct it; try (subst c; exact Logic.I);
        destruct Hc as (hp & hq & -> & -> & ->); simpl; rewrite nth_error_app2, Nat.sub_diag by lia; auto.
      + pose proof (iv_line _ _ _ _ I _ _ Hin) as Q. destruct c'; auto; simpl; eapply nth_error_app_old; eauto.
    - intros c' r' [E|Hin] h t Hh; rewrite EH.
      + inversion E; subst. destruct (proj1 A h t Hh) as [B1 B2]. split; auto. apply in_app_iff. left.
        eapply known_own; eauto.
      + destruct (iv_known _ _ _ _ I _ _ Hin _ _ Hh). split; auto. apply in_app_iff; auto.
  Qed.

  (** A step that adds a relation *)
  Lemma inv_add_relation id l s sk c s' q : inv id l s sk -> allowed l c ->
    let sk' := Sketch (sk_id sk) (sk_items sk) (sk_relations sk ++ [q]) (sk_fixed sk) in
    let k0 := CHandle (sk_id sk) (length (sk_relations sk)) (relation_tag q) in
    models s' sk' -> call_tag c = Some (relation_tag q) -> relation_items q = call_ids c ->
    inv id ((c, RConstraint k0) :: l) s' sk'.
  Proof.
    intros I A sk' k0 M' Ht Hi.
    assert (CH : constraint_handles sk' = constraint_handles sk ++ [k0]) by apply constraint_handles_add.
    assert (EH : element_handles sk' = element_handles sk) by reflexivity.
    constructor; auto.
    - apply I.
    - rewrite created_elements_cons, app_nil_r, (iv_eh _ _ _ _ I). auto.
    - rewrite created_constraints_cons, CH, (iv_ch _ _ _ _ I). auto.
    - intros h it Hit Hs HT. rewrite parts_ret by discriminate. now apply (iv_parts _ _ _ _ I).
    - intros h k x Hx Hh. rewrite fixed_step by (intros h'; destruct c; discriminate).
      now apply (iv_fixed _ _ _ _ I) with (x := x).
    - intros c' k [E|Hin].
      + inversion E; subst. exists q. simpl. rewrite nth_error_app2, Nat.sub_diag by lia. auto.
      + destruct (iv_con _ _ _ _ I _ _ Hin) as (q' & Hq & H). exists q'. simpl.
        rewrite (nth_error_app_old _ _ _ _ Hq). auto.
    - intros j q' Hq'. simpl in Hq'. apply nth_error_snoc in Hq'. destruct Hq' as [[_ Hq']|[-> ->]].
      + destruct (iv_con' _ _ _ _ I _ _ Hq') as (c' & k & Hin & E). exists c', k. split; [right; auto|auto].
      + exists c, k0. split; [left; auto|auto].
    - intros N h it Hit Hh. assert (N' : no_solve l) by (intros o r Hin; apply (N o r); right; auto).
      pose proof (iv_latest _ _ _ _ I N' h it Hit Hh) as Q.
      destruct it; auto; destruct c; try discriminate; auto.
    - intros c' h [E|Hin]; [inversion E|]. apply (iv_line _ _ _ _ I _ _ Hin).
    - intros c' r' [E|Hin] h t Hh; rewrite EH.
      + inversion E; subst. destruct (proj1 A h t Hh) as [B1 B2]. split; auto. eapply known_own; eauto.
      + eapply (iv_known _ _ _ _ I); eauto.
  Qed.

  (** ** The coordinates of an element, and its parts *)
  Lemma parts_coords id l s sk h p k x : inv id l s sk -> In h (element_handles sk) ->
    In p (element_handles sk) -> coord_value sk (eh_id p, k) = Some x ->
    (In (eh_id p, k) (item_coords sk (eh_id h)) <-> In p (parts l h)).
  Proof.
    intros I Hh Hp Hx. assert (Hp' := Hp).
    apply in_element_handles in Hh, Hp. destruct Hh as (it & Hit & Hs & Ht). destruct Hp as (it' & Hit' & Hs' & Ht').
    rewrite (iv_id _ _ _ _ I) in Hs, Hs'. rewrite (iv_parts _ _ _ _ I h it) by auto.
    unfold item_coords. rewrite Hit.
    assert (Hk : (k = 0 \/ (k = 1 /\ item_tag it' = TPoint)) /\ (item_tag it' = TPoint \/ item_tag it' = TLength)).
    { unfold coord_value in Hx. simpl in Hx. rewrite Hit' in Hx. destruct it'; destruct k as [|[|]]; try discriminate; auto. }
    assert (Eq : forall q t, (exists it2, nth_error (sk_items sk) q = Some it2 /\ item_tag it2 = t) ->
       (eh_id p = q <-> EHandle id q t = p)).
    { intros q t (it2 & H2 & H3). split.
      - intros <-. rewrite Hit' in H2. inversion H2; subst it2. destruct p; simpl in *; subst. auto.
      - intros <-. auto. }
    assert (R := iv_models _ _ _ _ I). destruct (item_rep_nth _ _ _ _ R Hit) as (e & He & Rp).
    assert (PT : forall q a, pt_at (sys_elements s) q = Some a -> exists it2, nth_error (sk_items sk) q = Some it2 /\ item_tag it2 = TPoint).
    { intros q a Hq. destruct (pt_at_item _ _ _ _ R Hq) as (? & ? & H2 & _). eauto. }
    assert (LN : forall q a, len_at (sys_elements s) q = Some a -> exists it2, nth_error (sk_items sk) q = Some it2 /\ item_tag it2 = TLength).
    { intros q a Hq. destruct (len_at_item _ _ _ _ R Hq) as (? & H2 & _). eauto. }
    assert (Eqh : eh_id p = eh_id h -> h = p) by (intros E; eapply handle_eq; eauto;
       apply in_element_handles; exists it; rewrite (iv_id _ _ _ _ I); auto).
    destruct it; simpl.
    - split; [intros [E|[]]; inversion E; left; apply Eqh; congruence|].
      intros [->|[]]. rewrite Hit in Hit'. inversion Hit'; subst it'. simpl in Hk.
      destruct Hk as [[->|[_ ?]] _]; [auto|discriminate].
    - split; [intros [E|[E|[]]]; inversion E; left; apply Eqh; congruence|].
      intros [->|[]]. destruct Hk as [[->|[-> _]] _]; auto.
    - destruct e; simpl in Rp; try contradiction. destruct Rp as [R1 R2].
      apply PT in R1, R2. apply Eq in R1, R2.
      split.
      + intros [E|[E|[E|[E|[]]]]]; inversion E; subst; [left; now apply R1|left; now apply R1|right; left; now apply R2|right; left; now apply R2].
      + intros [E|[E|[]]]; [apply R1 in E|apply R2 in E]; rewrite <- E; destruct Hk as [[->|[-> _]] _]; auto.
    - destruct e; simpl in Rp; try contradiction. destruct Rp as [R1 R2].
      apply PT in R1. assert (L2 := R2). apply LN in R2. destruct R2 as (it2 & R2a & R2b).
      assert (R2 : eh_id p = r <-> EHandle id r TLength = p) by (apply Eq; eauto). apply Eq in R1.
      split.
      + intros [E|[E|[E|[]]]]; inversion E; subst; [left; now apply R1|left; now apply R1|right; left; now apply R2].
      + intros [E|[E|[]]]; [apply R1 in E|apply R2 in E]; rewrite <- E; destruct Hk as [[->|[-> Hk]] _]; auto.
        exfalso. rewrite <- E, Hit' in R2a. inversion R2a; subst. congruence.
  Qed.

  Lemma allowed_unforged id l s sk c : inv id l s sk -> allowed l c -> unforged sk c.
  Proof.
    intros I A. destruct c; simpl; auto. intros r Hr Hs.
    destruct A as (_ & A & _). specialize (A h (or_introl eq_refl)).
    apply (known_own_c _ _ _ _ _ I) in A. apply in_constraint_handles in A.
    destruct A as (r' & Hr' & _ & Ht). congruence.
  Qed.

  Lemma inv_same id l s sk c r s' : inv id l s sk -> allowed l c -> models s' sk ->
    (forall h, r <> RElement h) -> (forall k, r <> RConstraint k) ->
    (forall h, c <> Fix h) -> (forall h, c <> Unfix h) ->
    (forall h, latest ((c, r) :: l) h = latest l h) ->
    inv id ((c, r) :: l) s' sk.
  Proof.
    intros I A M Re Rc Cf Cu Hl. eapply inv_shape; eauto.
    - apply shape_list_refl.
    - apply same_shape_refl.
    - intros h k x Hx Hh. rewrite fixed_step by auto. eapply (iv_fixed _ _ _ _ I); eauto.
    - intros N h it Hit Hh. rewrite Hl. apply (iv_latest _ _ _ _ I); auto.
      intros o r' Hin. apply (N o r'). right; auto.
  Qed.

  Lemma replace_shape (xs : list (item F)) i it : 
    match nth_error xs i with Some a => item_shape_eq a it | None => False end ->
    Forall2 item_shape_eq xs (replace xs i it).
  Proof.
    revert i. induction xs as [|a xs IH]; intros i H; [destruct i; simpl in H; contradiction|].
    destruct i; simpl in *; constructor; auto using shape_refl, shape_list_refl.
  Qed.
  Lemma replace_same_shape (xs : list (relation F)) i q :
    match nth_error xs i with Some a => same_shape a q | None => False end ->
    Forall2 same_shape xs (replace xs i q).
  Proof.
    revert i. induction xs as [|a xs IH]; intros i H; [destruct i; simpl in H; contradiction|].
    destruct i; simpl in *; constructor; auto using same_shape_refl. split; auto.
  Qed.
  Lemma has_tag_nth sk t i : has_tag sk t i = true -> exists it, nth_error (sk_items sk) i = Some it /\ item_tag it = t.
  Proof. unfold has_tag. destruct (nth_error (sk_items sk) i) as [it|]; [|discriminate]. destruct it, t; try discriminate; eauto. Qed.

  Lemma inv_step id l s sk c r s' sk' : inv id l s sk -> allowed l c ->
    spec_step c sk sk' r -> models s' sk' -> inv id ((c, r) :: l) s' sk'.
  Proof.
    intros I A H M'. inversion H; subst.
    2:{ eapply inv_same; eauto; intros; try discriminate; auto. }
    2,3: match goal with
      | S : solved _ _ |- _ => destruct S as (S1 & S2 & S3 & S4 & _)
      | S : solved_assembly _ _ |- _ => destruct S as (S1 & S2 & S3 & S4 & _) end;
      eapply inv_shape; eauto; try (intros; discriminate);
      [rewrite S2; apply same_shape_refl
      |intros h k x Hx Hh; rewrite S3; simpl; eapply (iv_fixed _ _ _ _ I); eauto
      |intros N; exfalso; apply (N opts RUnit); left; auto].
    rename H0 into E.
    assert (Fx : forall k, In (length (sk_items sk), k) (sk_fixed sk) -> False).
    { intros k Hin. destruct (m_fixed_coord _ _ (iv_models _ _ _ _ I) _ Hin) as [v Hv].
      unfold addr in Hv. simpl in Hv. rewrite (items_length _ _ (iv_models _ _ _ _ I)) in Hv.
      rewrite (proj2 (nth_error_None _ _) (le_n _)) in Hv. discriminate. }
    destruct c; cbn [spec_call] in E.
    - inversion E; subst. apply (inv_add_item id l s sk _ s' (ILength length)); auto.
    - inversion E; subst. apply (inv_add_item id l s sk _ s' (IPoint x y)); auto.
    - destruct (_ && _)%bool in E; [|discriminate]. inversion E; subst.
      apply (inv_add_item id l s sk _ s' (ILine (eh_id point1) (eh_id point2))); auto. eauto.
    - destruct (_ && _)%bool in E; [|discriminate]. inversion E; subst.
      apply (inv_add_item id l s sk _ s' (ICircle (eh_id center) (eh_id radius))); auto. eauto.
    - unfold add_relation in E. match type of E with context [relation_ok _ ?q0] => destruct (relation_ok _ _) in E; [|discriminate]; inversion E; subst; exact (inv_add_relation id l s sk _ s' q0 I A M' eq_refl eq_refl) end.
    - unfold add_relation in E. match type of E with context [relation_ok _ ?q0] => destruct (relation_ok _ _) in E; [|discriminate]; inversion E; subst; exact (inv_add_relation id l s sk _ s' q0 I A M' eq_refl eq_refl) end.
    - unfold add_relation in E. match type of E with context [relation_ok _ ?q0] => destruct (relation_ok _ _) in E; [|discriminate]; inversion E; subst; exact (inv_add_relation id l s sk _ s' q0 I A M' eq_refl eq_refl) end.
    - unfold add_relation in E. match type of E with context [relation_ok _ ?q0] => destruct (relation_ok _ _) in E; [|discriminate]; inversion E; subst; exact (inv_add_relation id l s sk _ s' q0 I A M' eq_refl eq_refl) end.
    - unfold add_relation in E. match type of E with context [relation_ok _ ?q0] => destruct (relation_ok _ _) in E; [|discriminate]; inversion E; subst; exact (inv_add_relation id l s sk _ s' q0 I A M' eq_refl eq_refl) end.
    - unfold add_relation in E. match type of E with context [relation_ok _ ?q0] => destruct (relation_ok _ _) in E; [|discriminate]; inversion E; subst; exact (inv_add_relation id l s sk _ s' q0 I A M' eq_refl eq_refl) end.
    - unfold add_relation in E. match type of E with context [relation_ok _ ?q0] => destruct (relation_ok _ _) in E; [|discriminate]; inversion E; subst; exact (inv_add_relation id l s sk _ s' q0 I A M' eq_refl eq_refl) end.
    - unfold add_relation in E. match type of E with context [relation_ok _ ?q0] => destruct (relation_ok _ _) in E; [|discriminate]; inversion E; subst; exact (inv_add_relation id l s sk _ s' q0 I A M' eq_refl eq_refl) end.
    - unfold add_relation in E. match type of E with context [relation_ok _ ?q0] => destruct (relation_ok _ _) in E; [|discriminate]; inversion E; subst; exact (inv_add_relation id l s sk _ s' q0 I A M' eq_refl eq_refl) end.
    - unfold add_relation in E. match type of E with context [relation_ok _ ?q0] => destruct (relation_ok _ _) in E; [|discriminate]; inversion E; subst; exact (inv_add_relation id l s sk _ s' q0 I A M' eq_refl eq_refl) end.
    - unfold add_relation in E. match type of E with context [relation_ok _ ?q0] => destruct (relation_ok _ _) in E; [|discriminate]; inversion E; subst; exact (inv_add_relation id l s sk _ s' q0 I A M' eq_refl eq_refl) end.
    - destruct (has_tag _ _ _) in E; [|discriminate]. inversion E; subst.
      assert (Kh : In h (element_handles sk)) by (eapply known_own; eauto; apply (proj1 A h None); simpl; auto).
      eapply inv_shape; eauto; try (intros; discriminate); simpl.
      + apply shape_list_refl.
      + apply same_shape_refl.
      + intros p k x Hx Hp. rewrite in_app_iff, (parts_coords _ _ _ _ _ _ _ _ I Kh Hp Hx), (iv_fixed _ _ _ _ I p k x Hx Hp).
        destruct (in_dec ehandle_dec p (parts l h)); intuition.
      + intros N p it Hit Hp. apply (iv_latest _ _ _ _ I); auto. intros o r' Hin. apply (N o r'). right; auto.
    - destruct (has_tag _ _ _) in E; [|discriminate]. inversion E; subst.
      assert (Kh : In h (element_handles sk)) by (eapply known_own; eauto; apply (proj1 A h None); simpl; auto).
      eapply inv_shape; eauto; try (intros; discriminate); simpl.
      + apply shape_list_refl.
      + apply same_shape_refl.
      + intros p k x Hx Hp. rewrite filter_In, negb_true_iff, (iv_fixed _ _ _ _ I p k x Hx Hp).
        assert (B : existsb (coord_eqb (eh_id p, k)) (item_coords sk (eh_id h)) = false <-> ~ In p (parts l h)).
        { rewrite <- (parts_coords _ _ _ _ _ _ _ _ I Kh Hp Hx). rewrite <- not_true_iff_false, existsb_exists.
          split; intros Q Q'; apply Q.
          - exists (eh_id p, k). split; auto. now apply coord_eqb_eq.
          - destruct Q' as (c & Hc & Ec). apply coord_eqb_eq in Ec. subst. auto. }
        rewrite B. destruct (in_dec ehandle_dec p (parts l h)); intuition discriminate.
      + intros N p it Hit Hp. apply (iv_latest _ _ _ _ I); auto. intros o r' Hin. apply (N o r'). right; auto.
    - destruct (has_tag _ _ _) eqn:Ht in E; [|discriminate]. inversion E; subst. clear E.
      assert (Kh : In h (element_handles sk)) by (eapply known_own; eauto; apply (proj1 A h (Some TPoint)); simpl; auto).
      apply has_tag_nth in Ht. destruct Ht as (it & Hit & Htag). destruct it; try discriminate.
      eapply inv_shape; eauto; try (intros; discriminate); simpl.
      + apply replace_shape. rewrite Hit. exact Logic.I.
      + apply same_shape_refl.
      + intros p k z Hx Hp. eapply (iv_fixed _ _ _ _ I); eauto.
      + intros N p it Hit' Hp. rewrite nth_error_replace in Hit'.
        assert (N' : no_solve l) by (intros o r' Hin; apply (N o r'); right; auto).
        destruct (Nat.eqb_spec (eh_id h) (eh_id p)) as [Eq|Ne].
        * destruct (Nat.ltb _ _); [|discriminate]. inversion Hit'; subst it.
          assert (h = p) by (eapply handle_eq; eauto). subst p.
          destruct (ehandle_dec h h); auto; contradiction.
        * pose proof (iv_latest _ _ _ _ I N' p it Hit' Hp) as Q. destruct it; auto;
          (destruct (ehandle_dec h p); [congruence|auto]).
    - destruct (has_tag _ _ _) eqn:Ht in E; [|discriminate]. inversion E; subst. clear E.
      assert (Kh : In h (element_handles sk)) by (eapply known_own; eauto; apply (proj1 A h (Some TLength)); simpl; auto).
      apply has_tag_nth in Ht. destruct Ht as (it & Hit & Htag). destruct it; try discriminate.
      eapply inv_shape; eauto; try (intros; discriminate); simpl.
      + apply replace_shape. rewrite Hit. exact Logic.I.
      + apply same_shape_refl.
      + intros p k z Hx Hp. eapply (iv_fixed _ _ _ _ I); eauto.
      + intros N p it Hit' Hp. rewrite nth_error_replace in Hit'.
        assert (N' : no_solve l) by (intros o r' Hin; apply (N o r'); right; auto).
        destruct (Nat.eqb_spec (eh_id h) (eh_id p)) as [Eq|Ne].
        * destruct (Nat.ltb _ _); [|discriminate]. inversion Hit'; subst it.
          assert (h = p) by (eapply handle_eq; eauto). subst p.
          destruct (ehandle_dec h h); auto; contradiction.
        * pose proof (iv_latest _ _ _ _ I N' p it Hit' Hp) as Q. destruct it; auto;
          (destruct (ehandle_dec h p); [congruence|auto]).
    - destruct (nth_error (sk_relations sk) (ch_id h)) as [q|] eqn:Eq; [|discriminate].
      destruct (with_parameter (ch_tag h) x q) as [q'|] eqn:Ew; [|discriminate]. inversion E; subst. clear E.
      eapply inv_shape; eauto; try (intros; discriminate); simpl.
      + apply shape_list_refl.
      + apply replace_same_shape. rewrite Eq.
        destruct (ch_tag h), q; simpl in Ew; try discriminate; inversion Ew; split; auto.
      + intros p k z Hx Hp. eapply (iv_fixed _ _ _ _ I); eauto.
      + intros N p it Hit' Hp. apply (iv_latest _ _ _ _ I); auto. intros o r' Hin. apply (N o r'). right; auto.
    - destruct (_ && _)%bool in E; [|discriminate]. destruct (value_of sk (eh_id h)); [|discriminate].
      inversion E; subst. eapply inv_same; eauto; intros; try discriminate; auto.
    - destruct (nth_error (sk_relations sk) (ch_id h)); [|discriminate]. destruct (N.eqb _ _); [|discriminate].
      destruct (residual_of sk r0); [|discriminate].
      inversion E; subst. eapply inv_same; eauto; intros; try discriminate; auto.
    - inversion E; subst. eapply inv_same; eauto; intros; try discriminate; auto.
    - inversion E; subst. eapply inv_same; eauto; intros; try discriminate; auto.
    - discriminate.
    - discriminate.
  Qed.

  Theorem history_inv env id l s : env_ok env -> history env id l s -> exists sk, inv id l s sk.
  Proof.
    intros EO H. induction H as [|l s c s' r H [sk I] A Hs].
    - exists (sketch_new id). constructor; simpl; auto; try (intros; contradiction).
      + apply models_new.
      + intros h it Hit. destruct (eh_id h); discriminate.
      + intros j r Hj. destruct j; discriminate.
    - destruct (step_sound env c s sk s' r EO (iv_models _ _ _ _ I) (allowed_unforged _ _ _ _ _ I A) Hs) as (sk' & S & M').
      exists sk'. eapply inv_step; eauto.
  Qed.

  Lemma inv_history_step env id l s sk c s' r : env_ok env -> inv id l s sk -> allowed l c ->
    step env c s = Done (s', r) ->
    exists sk', spec_step c sk sk' r /\ inv id ((c, r) :: l) s' sk'.
  Proof.
    intros EO I A Hs.
    destruct (step_sound env c s sk s' r EO (iv_models _ _ _ _ I) (allowed_unforged _ _ _ _ _ I A) Hs) as (sk' & S & M').
    exists sk'. split; auto. eapply inv_step; eauto.
  Qed.

  (** One more call, with the sketch specification of it *)
  Theorem history_step env id l s c s' r : env_ok env -> history env id l s -> allowed l c ->
    step env c s = Done (s', r) ->
    exists sk sk', inv id l s sk /\ spec_step c sk sk' r /\ inv id ((c, r) :: l) s' sk'.
  Proof.
    intros EO H A Hs. destruct (history_inv _ _ _ _ EO H) as [sk I].
    destruct (step_sound env c s sk s' r EO (iv_models _ _ _ _ I) (allowed_unforged _ _ _ _ _ I A) Hs) as (sk' & S & M').
    exists sk, sk'. split; auto. split; auto. eapply inv_step; eauto.
  Qed.
End Hist.
