(** Proofs about the SVG renderer. *)
From Coq Require Import List Arith NArith ZArith String Lia Bool.
From Verif Require Import Lib Num Outcome ModelExpr ModelSystem ModelSolve ModelApi ModelSvg
  Spec_Solver Spec_History Spec_Svg Spec_Sketch Proofs_Calls Proofs_Invariant Proofs_History Proofs_Api.
From Verif Require Proofs_Forest Proofs_Symbolic.
Import ListNotations.

Lemma same_eqb h k : ehandle_eqb h k = true <-> same h k.
Proof. unfold ehandle_eqb, same. rewrite andb_true_iff, N.eqb_eq, Nat.eqb_eq. tauto. Qed.

Section Asked.
  Context {C : Type}.
  Implicit Types (qs : list (request C)) (h k : ehandle).
  Lemma asked_app qs q : asked (qs ++ [q]) = ask (asked qs) q.
  Proof. unfold asked. rewrite fold_left_app. reflexivity. Qed.
  Lemma hidden_spec qs h : is_hidden (asked qs) h = true <-> hides qs h.
  Proof.
    unfold hides. induction qs as [|q qs IH] using rev_ind.
    - cbn. split; [discriminate|]. intros (k & [] & _).
    - rewrite asked_app. destruct q as [k c|k]; cbn.
      + fold (is_hidden (asked qs) h). rewrite IH. split; intros (j & Hj & S); exists j; split; auto.
        * apply in_or_app. auto.
        * apply in_app_or in Hj. destruct Hj as [Hj|[Hj|[]]]; [auto|discriminate].
      + fold (is_hidden (asked qs) h). rewrite orb_true_iff, IH, same_eqb. split.
        * intros [S|(j & Hj & S)]; [exists k|exists j]; split; auto; apply in_or_app; cbn; auto.
        * intros (j & Hj & S). apply in_app_or in Hj. destruct Hj as [Hj|[Hj|[]]]; [eauto|].
          inversion Hj; subst. auto.
  Qed.
  Lemma color_spec (default : C) qs h :
    colored default h qs (match color_get (asked qs) h with Some c => c | None => default end).
  Proof.
    induction qs as [|q qs IH] using rev_ind; [constructor|].
    rewrite asked_app. destruct q as [k c|k].
    - unfold color_get in *. cbn. destruct (ehandle_eqb h k) eqn:E; cbn.
      + apply colored_last. now apply same_eqb.
      + apply colored_before; [|exact IH]. intros j d Q S. inversion Q; subst.
        apply same_eqb in S. congruence.
    - apply colored_before; [discriminate|exact IH].
  Qed.
  Lemma colored_unique (default : C) qs h c : colored default h qs c ->
    forall d, colored default h qs d -> c = d.
  Proof.
    induction 1 as [|qs k c S|qs q c N H IH]; intros d D; inversion D; subst; auto;
      try (match goal with X : _ ++ [_] = [] |- _ => now apply app_eq_nil in X as [_ ?] end);
      try (match goal with X : [] = _ ++ [_] |- _ => symmetry in X; now apply app_eq_nil in X as [_ ?] end);
      try (match goal with X : _ ++ [_] = _ ++ [_] |- _ => apply app_inj_tail in X as [? X] end); subst.
    - congruence.
    - exfalso. match goal with X : forall _ _, _ -> ~ same h _ |- _ => eapply X; eauto end.
    - exfalso. eapply N; eauto.
    - eauto.
  Qed.
End Asked.

Section Shapes.
  Context {F : Type} {NF : Num F} {C : Type}.
  Variables (default : C) (qs : list (request C)) (s : system F) (belongs : element_value F -> bool).

  Lemma layer_in hs shapes : layer default qs s belongs hs shapes -> forall sh, In sh shapes ->
    In (sh_of sh) hs /\ ~ hides qs (sh_of sh) /\ get_value (sh_of sh) s = Done (sh_value sh) /\
    belongs (sh_value sh) = true /\ colored default (sh_of sh) qs (sh_color sh).
  Proof.
    induction 1 as [|h hs shapes Hh L IH|h v hs shapes G B L IH|h v c hs shapes N G B D L IH];
      intros sh I; [destruct I|..]; cbn.
    - destruct (IH _ I) as (?&?). auto.
    - destruct (IH _ I) as (?&?). auto.
    - destruct I as [<-|I]; cbn; [auto 8|]. destruct (IH _ I) as (?&?). auto.
  Qed.
  Lemma layer_all hs shapes : layer default qs s belongs hs shapes -> forall h v, In h hs ->
    ~ hides qs h -> get_value h s = Done v -> belongs v = true ->
    exists c, In (Shape h v c) shapes.
  Proof.
    induction 1 as [|h hs shapes Hh L IH|h v hs shapes G B L IH|h v c hs shapes N G B D L IH];
      intros h' v' I N' G' B'; [destruct I|..]; destruct I as [<-|I]; eauto.
    - contradiction.
    - congruence.
    - exists c. left. congruence.
    - destruct (IH _ _ I N' G' B') as [c' ?]. exists c'. right. auto.
  Qed.
  Lemma layer_sub hs shapes : layer default qs s belongs hs shapes -> NoDup hs -> NoDup (map sh_of shapes).
  Proof.
    induction 1 as [|h hs shapes Hh L IH|h v hs shapes G B L IH|h v c hs shapes N G B D L IH];
      intros ND; cbn; [constructor|..]; inversion ND; subst; auto.
    constructor; auto. intros I. apply in_map_iff in I. destruct I as (sh & E & I).
    destruct (layer_in _ _ L _ I) as (I' & _). cbn in E. rewrite E in I'. auto.
  Qed.
End Shapes.

Section Render.
  Context {F : Type} {NF : Num F} {C : Type} (p : painter F C).
  Variables (qs : list (request C)) (sw : F) (s : system F).
  Notation layer := (layer (p_default p) qs s).

  (** The box that the shapes make, from a box to start with *)
  Definition grow (b : rect F) (v : element_value F) : rect F :=
    match v with
    | VLength _ => b
    | VPoint a => union_pt b a
    | VLine a c => union b (line_box a c)
    | VCircle c r => union b (circle_box c r)
    end.

  Lemma concat_app xs ys : String.concat "" (xs ++ ys) = (String.concat "" xs ++ String.concat "" ys)%string.
  Proof.
    assert (K : forall x xs, String.concat "" (x :: xs) = (x ++ String.concat "" xs)%string).
    { intros x [|y l]; cbn; [|reflexivity]. clear. induction x; cbn; congruence. }
    assert (A : forall a b c : string, ((a ++ b) ++ c = a ++ b ++ c)%string).
    { intros a b c. induction a; cbn; congruence. }
    induction xs as [|x xs IH]; [reflexivity|]. cbn [app]. rewrite !K, IH, A. reflexivity.
  Qed.
  Lemma append_nil (x : string) : (x ++ "" = x)%string.
  Proof. induction x; cbn; congruence. Qed.
  Lemma append_assoc (a b c : string) : ((a ++ b) ++ c = a ++ b ++ c)%string.
  Proof. induction a; cbn; congruence. Qed.
  Lemma concat_cons x xs : String.concat "" (x :: xs) = (x ++ String.concat "" xs)%string.
  Proof. exact (eq_trans (concat_app [x] xs) eq_refl). Qed.

  Lemma drawing hs : (forall h, In h hs -> exists v, get_value h s = Done v) ->
    forall box top bottom, exists below above vs,
      layer lower hs below /\ layer upper hs above /\
      (forall v, In v vs -> exists sh, In sh (below ++ above) /\ sh_value sh = v) /\
      (forall sh, In sh (below ++ above) -> In (sh_value sh) vs) /\
      ofold (draw p (asked qs) sw s) hs (Canvas box top bottom) =
        Done (Canvas (fold_left grow vs box)
          (top ++ String.concat "" (map (print_shape p sw) above))
          (bottom ++ String.concat "" (map (print_shape p sw) below)))%string.
  Proof.
    induction hs as [|h hs IH]; intros G box top bottom.
    - exists [], [], []. cbn. rewrite !append_nil. split; [constructor|]. split; [constructor|]. split; [intros ? []|]. split; [intros ? []|]. reflexivity.
    - assert (G' : forall h, In h hs -> exists v, get_value h s = Done v) by (intros; apply G; right; auto).
      specialize (IH G'). cbn [ofold]. unfold draw at 1.
      destruct (is_hidden (asked qs) h) eqn:E.
      + apply hidden_spec in E. cbn [obind].
        destruct (IH box top bottom) as (below & above & vs & L & U & V1 & V2 & O).
        exists below, above, vs. split; [now apply layer_hidden|]. split; [now apply layer_hidden|]. auto.
      + assert (NH : ~ hides qs h) by (intros X; apply hidden_spec in X; congruence).
        destruct (G h (or_introl eq_refl)) as [v Gv]. rewrite Gv. cbn [obind].
        pose proof (color_spec (p_default p) qs h) as CS.
        set (c := match color_get (asked qs) h with Some c => c | None => p_default p end) in *.
        destruct v as [x|a|a b|a r]; cbn [obind cv_box cv_top cv_bottom].
        * destruct (IH box top bottom) as (below & above & vs & L & U & V1 & V2 & O).
          exists below, above, vs. split; [now apply (layer_other _ _ _ _ h _ _ _ Gv)|].
          split; [now apply (layer_other _ _ _ _ h _ _ _ Gv)|]. auto.
        * destruct (IH (grow box (VPoint a)) (top ++ print_shape p sw (Shape h (VPoint a) c))%string bottom)
            as (below & above & vs & L & U & V1 & V2 & O).
          exists below, (Shape h (VPoint a) c :: above), (VPoint a :: vs).
          split; [now apply (layer_other _ _ _ _ h _ _ _ Gv)|].
          split; [now apply layer_drawn|].
          split; [|split].
          -- intros v [<-|I]; [eexists; split; [apply in_or_app; right; left|]; reflexivity|].
             destruct (V1 _ I) as (sh & I' & Q). exists sh. split; auto.
             rewrite in_app_iff in *. cbn. tauto.
          -- intros sh I. rewrite in_app_iff in I. cbn in I. destruct I as [I|[<-|I]]; [|left; reflexivity|];
               right; apply V2; rewrite in_app_iff; auto.
          -- cbn [map]. rewrite concat_cons. rewrite append_assoc in O. exact O.
        * destruct (IH (grow box (VLine a b)) top (bottom ++ print_shape p sw (Shape h (VLine a b) c))%string)
            as (below & above & vs & L & U & V1 & V2 & O).
          exists (Shape h (VLine a b) c :: below), above, (VLine a b :: vs).
          split; [now apply layer_drawn|].
          split; [now apply (layer_other _ _ _ _ h _ _ _ Gv)|].
          split; [|split].
          -- intros v [<-|I]; [eexists; split; [left|]; reflexivity|].
             destruct (V1 _ I) as (sh & I' & Q). exists sh. split; auto. right. auto.
          -- intros sh I. destruct I as [<-|I]; [left; reflexivity|right; auto].
          -- cbn [map]. rewrite concat_cons. rewrite append_assoc in O. exact O.
        * destruct (IH (grow box (VCircle a r)) top (bottom ++ print_shape p sw (Shape h (VCircle a r) c))%string)
            as (below & above & vs & L & U & V1 & V2 & O).
          exists (Shape h (VCircle a r) c :: below), above, (VCircle a r :: vs).
          split; [now apply layer_drawn|].
          split; [now apply (layer_other _ _ _ _ h _ _ _ Gv)|].
          split; [|split].
          -- intros v [<-|I]; [eexists; split; [left|]; reflexivity|].
             destruct (V1 _ I) as (sh & I' & Q). exists sh. split; auto. right. auto.
          -- intros sh I. destruct I as [<-|I]; [left; reflexivity|right; auto].
          -- cbn [map]. rewrite concat_cons. rewrite append_assoc in O. exact O.
  Qed.

  (** The rectangle that is printed when the client gives none *)
  Definition frame (vs : list (element_value F)) : rect F :=
    let box := fold_left grow vs (Rect (p_infinity p) (p_infinity p) (nneg (p_infinity p)) (nneg (p_infinity p))) in
    let by_ := nmul (fmax (width box) (height box)) (tenm 1) in
    inflate box by_ by_.

  Lemma rendering hs vb : get_element_handles s = hs ->
    (forall h, In h hs -> exists v, get_value h s = Done v) ->
    exists below above vs,
      layer lower hs below /\ layer upper hs above /\
      (forall v, In v vs -> exists sh, In sh (below ++ above) /\ sh_value sh = v) /\
      (forall sh, In sh (below ++ above) -> In (sh_value sh) vs) /\
      render_system p (asked qs) vb sw s =
        let b := match vb with Some b => b | None => frame vs end in
        Done (print_picture p sw (rx0 b) (ry0 b) (nsub (rx1 b) (rx0 b)) (nsub (ry1 b) (ry0 b)) (below ++ above)).
  Proof.
    intros Hs G.
    destruct (drawing hs G (Rect (p_infinity p) (p_infinity p) (nneg (p_infinity p)) (nneg (p_infinity p))) "" "")
      as (below & above & vs & L & U & V1 & V2 & O).
    exists below, above, vs. split; [auto|]. split; [auto|]. split; [auto|]. split; [auto|].
    unfold render_system. rewrite Hs, O. cbn [obind cv_box cv_top cv_bottom].
    unfold print_picture. rewrite map_app, concat_app, (append_assoc (String.concat "" (map (print_shape p sw) below))).
    reflexivity.
  Qed.
End Render.

Section Picture.
  Context {F : Type} {NF : Num F} {C : Type} (p : painter F C).
  Variables (env : solver_env F) (id : N) (l : log F) (s : system F).
  Hypotheses (EO : env_ok env) (H : history env id l s).

  Lemma created_read h : In h (created_elements l) -> exists v, get_value h s = Done v /\
    match v with VLength _ => eh_tag h = TLength | _ => eh_tag h <> TLength end.
  Proof.
    intros I. destruct (history_inv _ _ _ _ EO H) as [sk IV]. assert (M := iv_models _ _ _ _ IV).
    rewrite (iv_eh _ _ _ _ IV) in I.
    pose proof (get_own _ _ _ M I) as G. apply in_element_handles in I. destruct I as (it & Hit & _ & Ht).
    destruct (value_of sk (eh_id h)) as [v|] eqn:V; [|contradiction]. exists v. split; auto.
    unfold value_of in V. rewrite Hit in V. rewrite Ht.
    destruct it; cbn in *.
    - inversion V. reflexivity.
    - inversion V. discriminate.
    - destruct (line_of sk (eh_id h)); inversion V. discriminate.
    - destruct (circle_of sk (eh_id h)); inversion V. discriminate.
  Qed.
  Lemma created_of h : In h (created_elements l) -> eh_system h = id.
  Proof.
    intros I. destruct (history_inv _ _ _ _ EO H) as [sk IV].
    rewrite (iv_eh _ _ _ _ IV) in I. apply in_element_handles in I. destruct I as (it & Hit & E & _).
    rewrite E. apply (iv_id _ _ _ _ IV).
  Qed.

  Lemma picture qs sw vb : exists below above vs,
    layer (p_default p) qs s lower (created_elements l) below /\
    layer (p_default p) qs s upper (created_elements l) above /\
    (forall v, In v vs -> exists sh, In sh (below ++ above) /\ sh_value sh = v) /\
    (forall sh, In sh (below ++ above) -> In (sh_value sh) vs) /\
    render_system p (asked qs) vb sw s =
      let b := match vb with Some b => b | None => frame p vs end in
      Done (print_picture p sw (rx0 b) (ry0 b) (nsub (rx1 b) (rx0 b)) (nsub (ry1 b) (ry0 b)) (below ++ above)).
  Proof.
    apply rendering.
    - apply (listings _ _ _ _ EO H).
    - intros h I. destruct (created_read h I) as (v & G & _). eauto.
  Qed.

  Lemma once qs below above :
    layer (p_default p) qs s lower (created_elements l) below ->
    layer (p_default p) qs s upper (created_elements l) above ->
    NoDup (map (fun sh => as_id (sh_of sh)) (below ++ above)) /\
    forall h, In h (map sh_of (below ++ above)) <->
      In h (created_elements l) /\ ~ hides qs h /\ eh_tag h <> TLength.
  Proof.
    intros L U. assert (ND := proj1 (proj2 (listings _ _ _ _ EO H))).
    assert (N1 : NoDup (map sh_of (below ++ above))).
    { rewrite map_app. apply Proofs_Forest.NoDup_app_intro.
      - eapply layer_sub; eauto.
      - eapply layer_sub; eauto.
      - intros h I J. apply in_map_iff in I, J. destruct I as (a & Ea & Ia), J as (b & Eb & Ib).
        destruct (layer_in _ _ _ _ _ _ L _ Ia) as (_ & _ & G1 & B1 & _).
        destruct (layer_in _ _ _ _ _ _ U _ Ib) as (_ & _ & G2 & B2 & _).
        rewrite Ea in G1. rewrite Eb in G2. rewrite G1 in G2. inversion G2 as [Q]. rewrite Q in B1.
        destruct (sh_value b); discriminate. }
    assert (IN : forall sh, In sh (below ++ above) -> In (sh_of sh) (created_elements l) /\
      ~ hides qs (sh_of sh) /\ get_value (sh_of sh) s = Done (sh_value sh) /\
      match sh_value sh with VLength _ => False | _ => True end).
    { intros sh I. apply in_app_or in I. destruct I as [I|I].
      - destruct (layer_in _ _ _ _ _ _ L _ I) as (K & N & G & B & _). repeat split; auto.
        destruct (sh_value sh); auto; discriminate.
      - destruct (layer_in _ _ _ _ _ _ U _ I) as (K & N & G & B & _). repeat split; auto.
        destruct (sh_value sh); auto; discriminate. }
    split.
    - rewrite <- map_map with (f := sh_of). apply Proofs_Symbolic.NoDup_map_inj; auto.
      intros h k I J E. apply in_map_iff in I, J. destruct I as (a & <- & Ia), J as (b & <- & Ib).
      destruct (IN _ Ia) as (Ka & _ & Ga & _), (IN _ Ib) as (Kb & _ & Gb & _).
      unfold as_id in E. rewrite (created_of _ Ka), (created_of _ Kb) in E.
      assert (Q : eh_id (sh_of a) = eh_id (sh_of b)) by lia.
      destruct (history_inv _ _ _ _ EO H) as [sk IV]. rewrite (iv_eh _ _ _ _ IV) in Ka, Kb.
      apply in_element_handles in Ka, Kb. destruct Ka as (i & Hi & Si & Ti), Kb as (j & Hj & Sj & Tj).
      destruct (sh_of a), (sh_of b); cbn in *. congruence.
    - intros h. split.
      + intros I. apply in_map_iff in I. destruct I as (sh & <- & I). destruct (IN _ I) as (K & N & G & V).
        split; auto. split; auto. destruct (created_read _ K) as (v & G' & T). rewrite G in G'.
        inversion G' as [Q]. rewrite <- Q in T. destruct (sh_value sh); auto.
      + intros (K & N & T). destruct (created_read _ K) as (v & G & T').
        rewrite map_app. apply in_or_app.
        destruct v as [x|a|a b|a r].
        * contradiction.
        * right. destruct (layer_all _ _ _ _ _ _ U _ _ K N G eq_refl) as (c & I).
          apply in_map_iff. eexists; split; [|exact I]; reflexivity.
        * left. destruct (layer_all _ _ _ _ _ _ L _ _ K N G eq_refl) as (c & I).
          apply in_map_iff. eexists; split; [|exact I]; reflexivity.
        * left. destruct (layer_all _ _ _ _ _ _ L _ _ K N G eq_refl) as (c & I).
          apply in_map_iff. eexists; split; [|exact I]; reflexivity.
  Qed.
End Picture.
