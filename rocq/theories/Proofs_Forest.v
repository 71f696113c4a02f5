(** Post-order and depth levels of rooted forests *)
From Coq Require Import List Arith Bool Lia Permutation.
From Verif Require Import Outcome Lib ModelForest Spec_Forest Proofs_Permutation.
Import ListNotations.

(* ----- forests ----- *)

Lemma parent_fun ps v p q : parent ps v p -> parent ps v q -> p = q.
Proof. unfold parent. congruence. Qed.

Lemma depth_fun ps v d : depth ps v d -> forall e, depth ps v e -> d = e.
Proof.
  induction 1 as [v Hr|v p d Hp _ IH]; intros e He; inversion He as [? Hr'|? q e' Hq He']; subst.
  - reflexivity.
  - unfold root, parent in *; congruence.
  - unfold root, parent in *; congruence.
  - rewrite (parent_fun _ _ _ _ Hp Hq) in IH. rewrite (IH e' He'). reflexivity.
Qed.

Lemma below_trans ps u v w : below_node ps u v -> below_node ps v w -> below_node ps u w.
Proof. induction 1; [auto|]. intros. eapply below_step; eauto. Qed.

Lemma below_depth_ex ps u v : below_node ps u v -> forall d, depth ps v d -> exists e, depth ps u e /\ d <= e /\ (d = e -> u = v).
Proof.
  induction 1 as [v|u p v Hp _ IH]; intros d Hd.
  - exists d. auto.
  - destruct (IH d Hd) as (e & He & Hle & _). exists (S e). split; [|split; [lia|lia]].
    eapply depth_child; eassumption.
Qed.

Lemma below_depth ps u v e d : below_node ps u v -> depth ps u e -> depth ps v d -> d <= e /\ (d = e -> u = v).
Proof.
  intros H He Hd. destruct (below_depth_ex _ _ _ H d Hd) as (e' & He' & L & Q).
  rewrite (depth_fun _ _ _ He _ He'). auto.
Qed.

Lemma below_compare ps u v : below_node ps u v -> forall w, below_node ps u w -> below_node ps v w \/ below_node ps w v.
Proof.
  induction 1 as [v|u p v Hp Hpv IH]; intros w Hw; [auto|].
  inversion Hw as [|? q ? Hq Hqw]; subst.
  - right. eapply below_step; eassumption.
  - rewrite (parent_fun _ _ _ _ Hq Hp) in Hqw. apply IH. exact Hqw.
Qed.

Lemma below_same_depth ps u v w d :
  below_node ps u v -> below_node ps u w -> depth ps v d -> depth ps w d -> v = w.
Proof.
  intros Hv Hw Dv Dw. destruct (below_compare _ _ _ Hv _ Hw) as [H|H].
  - apply (below_depth _ _ _ _ _ H Dv Dw). reflexivity.
  - symmetry. apply (below_depth _ _ _ _ _ H Dw Dv). reflexivity.
Qed.

Section Forest.
Context (ps : list (option nat)) (Hf : forest ps).
Let n := length ps.

Lemma depth_ex v : v < n -> exists d, depth ps v d.
Proof.
  intros H. destruct (Hf v H) as (r & Hb & Hr). clear H. induction Hb as [v|u p v Hp _ IH].
  - exists 0. constructor. exact Hr.
  - destruct (IH Hr) as [d Hd]. exists (S d). eapply depth_child; eassumption.
Qed.

Lemma depth_lt v d : depth ps v d -> v < n.
Proof. inversion 1; unfold root, parent in *; eapply nth_error_lt; eassumption. Qed.

Lemma parent_lt v p : parent ps v p -> p < n.
Proof.
  intros Hp. destruct (depth_ex v) as [d Hd]; [eapply nth_error_lt; exact Hp|].
  inversion Hd as [? Hr|? q d' Hq Hd']; subst; [unfold root, parent in *; congruence|].
  rewrite (parent_fun _ _ _ _ Hp Hq). eapply depth_lt; exact Hd'.
Qed.

Lemma parent_depth v p d : parent ps v p -> depth ps p d -> depth ps v (S d).
Proof. intros. eapply depth_child; eassumption. Qed.

Lemma depth_bound v d : depth ps v d -> d < n.
Proof.
  intros H. assert (G : exists l, length l = S d /\ NoDup l /\ forall u, In u l -> u < n /\ exists e, depth ps u e /\ e <= d).
  { induction H as [v Hr|v p d Hp Hd IH].
    - exists [v]. split; [reflexivity|]. split; [repeat constructor; intros []|].
      intros u [<-|[]]. split; [eapply nth_error_lt; exact Hr|]. exists 0. split; [constructor; exact Hr|lia].
    - destruct IH as (l & L & N & R). exists (v :: l). split; [cbn; lia|].
      pose proof (parent_depth _ _ _ Hp Hd) as Dv. split.
      + constructor; [|exact N]. intros Hi. destruct (R v Hi) as (_ & e & He & Le).
        pose proof (depth_fun _ _ _ Dv _ He). lia.
      + intros u [<-|Hu].
        * split; [eapply depth_lt; exact Dv|]. exists (S d). auto.
        * destruct (R u Hu) as (? & e & He & Le). split; [assumption|]. exists e. split; [exact He|lia]. }
  destruct G as (l & L & N & R).
  assert (length l <= length (seq 0 n)).
  { apply NoDup_incl_length; [exact N|]. intros u Hu. apply in_seq. destruct (R u Hu). lia. }
  rewrite seq_length in *. lia.
Qed.

Lemma below_lt u v : below_node ps u v -> v < n -> u < n.
Proof. inversion 1; subst; auto. intros. eapply nth_error_lt; eassumption. Qed.

Lemma below_range u v : below_node ps u v -> u < n -> v < n.
Proof. induction 1 as [|u p v Hp _ IH]; auto. intros _. apply IH. eapply parent_lt; exact Hp. Qed.

(* ----- the child lists ----- *)

Definition child_of (p v : nat) : bool :=
  match nth_error ps v with Some (Some q) => q =? p | _ => false end.

Lemma child_of_spec p v : child_of p v = true <-> parent ps v p.
Proof.
  unfold child_of, parent. destruct (nth_error ps v) as [[q|]|].
  - rewrite Nat.eqb_eq. split; [intros ->; reflexivity|congruence].
  - split; discriminate.
  - split; discriminate.
Qed.

Definition kids (k p : nat) : list nat := rev (filter (child_of p) (seq 0 k)).

Lemma kids_In p c : In c (kids n p) <-> parent ps c p.
Proof.
  unfold kids. rewrite <- in_rev, filter_In, child_of_spec. split; [tauto|].
  intros H. split; [|exact H]. apply in_seq. apply nth_error_lt in H. unfold n. lia.
Qed.

Lemma kids_NoDup k p : NoDup (kids k p).
Proof. unfold kids. apply NoDup_rev. apply NoDup_filter. apply seq_NoDup. Qed.

Lemma kids_S k p : kids (S k) p = if child_of p k then k :: kids k p else kids k p.
Proof.
  unfold kids. rewrite seq_S, filter_app. cbn [filter Nat.add].
  destruct (child_of p k); [rewrite rev_app_distr; reflexivity|rewrite app_nil_r; reflexivity].
Qed.

Fixpoint chain (next : list (option nat)) (h : option nat) (l : list nat) : Prop :=
  match l with
  | [] => h = None
  | c :: l => h = Some c /\ exists h', nth_error next c = Some h' /\ chain next h' l
  end.

Lemma chain_set next h l k x : chain next h l -> ~ In k l -> chain (lset next k x) h l.
Proof.
  revert h; induction l as [|c l IH]; intros h H N; [exact H|].
  destruct H as (-> & h' & E & H). split; [reflexivity|]. exists h'. split.
  - rewrite nth_error_lset_ne; [exact E|]. intros ->. apply N; left; reflexivity.
  - apply IH; [exact H|]. intros Hk; apply N; right; exact Hk.
Qed.

Definition chained (k : nat) (head next : list (option nat)) : Prop :=
  length head = n /\ length next = n /\
  forall p, p < n -> exists h, nth_error head p = Some h /\ chain next h (kids k p).

Lemma link_ok : exists head next,
  ofold link_child (combine (seq 0 n) ps) (repeat None n, repeat None n) = Done (head, next) /\ chained n head next.
Proof.
  destruct (ofold_ok_prefix (fun pre st => chained (length pre) (fst st) (snd st))
    link_child (combine (seq 0 n) ps)) with (s := (repeat (@None nat) n, repeat (@None nat) n)) as ([head next] & E & C).
  - intros pre [node par] post [head next] El (Lh & Ln & C). cbn [fst snd] in Lh, Ln, C.
    assert (En : nth_error (combine (seq 0 n) ps) (length pre) = Some (node, par)).
    { rewrite El. rewrite nth_error_app2 by lia. rewrite Nat.sub_diag. reflexivity. }
    rewrite nth_error_combine, nth_error_seq in En.
    destruct (Nat.ltb_spec (length pre) n) as [Hk|]; [|discriminate].
    destruct (nth_error ps (length pre)) as [par'|] eqn:Ep; [|discriminate].
    injection En as <- ->. cbn [Nat.add]. rewrite app_length. cbn [length]. rewrite Nat.add_1_r.
    destruct par as [p|]; cbn [link_child].
    + assert (Hp : p < n) by (eapply parent_lt; exact Ep).
      destruct (C p Hp) as (h & Eh & Ch). rewrite (proj2 (oget_done _ _ _) Eh). cbn [obind].
      rewrite oset_ok by lia. cbn [obind]. rewrite oset_ok by lia. cbn [obind].
      eexists; split; [reflexivity|]. cbn [fst snd]. split; [rewrite lset_length; exact Lh|].
      split; [rewrite lset_length; exact Ln|]. intros q Hq.
      assert (Nk : forall q, ~ In (length pre) (kids (length pre) q)).
      { intros r Hr. unfold kids in Hr. rewrite <- in_rev in Hr. apply filter_In in Hr. destruct Hr as [Hr _].
        apply in_seq in Hr. lia. }
      rewrite nth_error_lset, kids_S. destruct (Nat.ltb_spec p (length head)); [|lia].
      replace (child_of q (length pre)) with (p =? q) by (unfold child_of; rewrite Ep; reflexivity).
      destruct (Nat.eqb_spec p q) as [->|N].
      * eexists; split; [reflexivity|]. cbn [chain]. split; [reflexivity|]. exists h. split.
        -- apply nth_error_lset_eq. lia.
        -- apply chain_set; [exact Ch|apply Nk].
      * destruct (C q Hq) as (h' & Eh' & Ch'). exists h'. split; [exact Eh'|]. apply chain_set; [exact Ch'|apply Nk].
    + eexists; split; [reflexivity|]. cbn [fst snd]. split; [exact Lh|]. split; [exact Ln|].
      intros q Hq. rewrite kids_S. unfold child_of at 1. rewrite Ep. apply C; exact Hq.
  - cbn [fst snd length]. split; [apply repeat_length|]. split; [apply repeat_length|].
    intros p Hp. exists None. split; [|reflexivity]. rewrite nth_error_repeat.
    destruct (Nat.ltb_spec p n); [reflexivity|lia].
  - exists head, next. split; [exact E|]. cbn [fst snd] in C.
    rewrite combine_length, seq_length in C. fold n in C. rewrite Nat.min_id in C. exact C.
Qed.

(* ----- the traversal ----- *)

Definition nested (l : list nat) : Prop := forall u, In u l -> exists a m b,
  l = a ++ m ++ [u] ++ b /\ forall w, In w (m ++ [u]) <-> below_node ps w u.

Definition lists (v : nat) (l : list nat) : Prop :=
  (forall u, In u l <-> below_node ps u v) /\ NoDup l /\ nested l.

Lemma nested_app l m : nested l -> nested m -> nested (l ++ m).
Proof.
  intros Hl Hm u Hu. apply in_app_or in Hu. destruct Hu as [Hu|Hu].
  - destruct (Hl u Hu) as (a & k & b & -> & Hw). exists a, k, (b ++ m). split; [|exact Hw].
    rewrite <- !app_assoc. reflexivity.
  - destruct (Hm u Hu) as (a & k & b & -> & Hw). exists (l ++ a), k, b. split; [|exact Hw].
    rewrite <- !app_assoc. reflexivity.
Qed.

Lemma NoDup_app_intro {A} (l m : list A) : NoDup l -> NoDup m -> (forall x, In x l -> ~ In x m) -> NoDup (l ++ m).
Proof.
  induction 1 as [|x l Hx Hl IH]; intros Hm D; [exact Hm|]. cbn [app]. constructor.
  - rewrite in_app_iff. intros [H|H]; [contradiction|]. apply (D x); [left; reflexivity|exact H].
  - apply IH; [exact Hm|]. intros y Hy. apply D. right; exact Hy.
Qed.

Section Traverse.
Context (next : list (option nat)) (Ln : length next = n).

Definition ready (head : list (option nat)) (u : nat) : Prop :=
  exists h, nth_error head u = Some h /\ chain next h (kids n u).

Definition traverses (v : nat) (l : list nat) : Prop :=
  forall head post stack fuel, length head = n -> (forall u, below_node ps u v -> ready head u) ->
  exists head', dfs_from (2 * length l - 1 + fuel) next v head post stack =
      match stack with
      | [] => Done (head', post ++ l)
      | p :: stack => dfs_from fuel next p head' (post ++ l) stack
      end /\ length head' = n /\
    forall u, ~ below_node ps u v -> nth_error head' u = nth_error head u.

(** The children [cs] of [v] still to visit *)
Lemma children_ok v d : depth ps v d ->
  forall cs, (forall c, In c cs -> parent ps c v) -> NoDup cs ->
  (forall c, In c cs -> exists l, lists c l /\ traverses c l) ->
  exists L, (forall u, In u L <-> exists c, In c cs /\ below_node ps u c) /\ NoDup L /\ nested L /\
  forall head post stack fuel h, length head = n ->
    nth_error head v = Some h -> chain next h cs ->
    (forall c u, In c cs -> below_node ps u c -> ready head u) ->
    exists head', dfs_from (2 * length L + fuel) next v head post stack = dfs_from fuel next v head' (post ++ L) stack /\
      length head' = n /\ nth_error head' v = Some None /\
      forall u, u <> v -> (forall c, In c cs -> ~ below_node ps u c) -> nth_error head' u = nth_error head u.
Proof.
  intros Dv. induction cs as [|c cs IH]; intros Hc Nd Hl.
  - exists []. split; [intros u; split; [intros []|intros (c & [] & _)]|]. split; [constructor|]. split; [intros u []|].
    intros head post stack fuel h Lh Eh Ch _. cbn [chain] in Ch. subst h. exists head.
    rewrite app_nil_r. cbn [length Nat.mul Nat.add]. auto.
  - inversion Nd as [|? ? Ncs Nd']; subst.
    destruct IH as (L & HL & NL & SL & T); [intros; apply Hc; right; assumption|exact Nd'|intros; apply Hl; right; assumption|].
    destruct (Hl c (or_introl eq_refl)) as (l & (Hu & Nl & Sl) & Tc).
    assert (Dc : forall c', In c' (c :: cs) -> depth ps c' (S d)).
    { intros c' Hc'. eapply parent_depth; [apply Hc; exact Hc'|exact Dv]. }
    assert (Dj : forall u c', In c' cs -> below_node ps u c -> ~ below_node ps u c').
    { intros u c' Hc' H1 H2. apply Ncs.
      rewrite (below_same_depth _ _ _ _ (S d) H1 H2); [exact Hc'|apply Dc; left; reflexivity|apply Dc; right; exact Hc']. }
    assert (Nv : forall c', In c' (c :: cs) -> ~ below_node ps v c').
    { intros c' Hc' H. pose proof (below_depth _ _ _ _ _ H Dv (Dc c' Hc')). lia. }
    exists (l ++ L). split; [|split; [|split]].
    + intros u. rewrite in_app_iff, Hu, HL. split.
      * intros [H|(c' & H1 & H2)]; [exists c; split; [left; reflexivity|exact H]|].
        exists c'. split; [right; exact H1|exact H2].
      * intros (c' & [<-|H1] & H2); [left; exact H2|]. right. exists c'. auto.
    + apply NoDup_app_intro; [exact Nl|exact NL|]. intros u H1 H2. apply Hu in H1. apply HL in H2.
      destruct H2 as (c' & Hc' & H2). apply (Dj u c' Hc' H1 H2).
    + apply nested_app; assumption.
    + intros head post stack fuel h Lh Eh Ch Rd. cbn [chain] in Ch. destruct Ch as (-> & h' & En & Ch).
      assert (Ll : 1 <= length l).
      { destruct l as [|x l']; [|cbn; lia]. exfalso. apply (proj2 (Hu c)). constructor. }
      replace (2 * length (l ++ L) + fuel) with (S (2 * length l - 1 + (2 * length L + fuel)))
        by (rewrite app_length; lia).
      cbn [dfs_from]. rewrite (proj2 (oget_done _ _ _) Eh). cbn [obind].
      rewrite (proj2 (oget_done _ _ _) En). cbn [obind].
      assert (Lv : v < n) by (rewrite <- Lh; eapply nth_error_lt; exact Eh).
      rewrite oset_ok by lia. cbn [obind].
      destruct (Tc (lset head v h') post (v :: stack) (2 * length L + fuel)) as (head1 & E1 & L1 & F1).
      { rewrite lset_length; exact Lh. }
      { intros u Hub. destruct (Rd c u (or_introl eq_refl) Hub) as (g & Eg & Cg). exists g. split; [|exact Cg].
        rewrite nth_error_lset_ne; [exact Eg|]. intros ->. apply (Nv c (or_introl eq_refl)). exact Hub. }
      rewrite E1.
      destruct (T head1 (post ++ l) stack fuel h') as (head2 & E2 & L2 & V2 & F2).
      * exact L1.
      * rewrite F1 by (apply Nv; left; reflexivity). apply nth_error_lset_eq. lia.
      * exact Ch.
      * intros c' u Hc' Hub. destruct (Rd c' u (or_intror Hc') Hub) as (g & Eg & Cg). exists g. split; [|exact Cg].
        rewrite F1 by (intros H; apply (Dj u c' Hc' H Hub)).
        rewrite nth_error_lset_ne; [exact Eg|]. intros ->. apply (Nv c' (or_intror Hc')). exact Hub.
      * exists head2. rewrite E2, <- app_assoc. split; [reflexivity|]. split; [exact L2|]. split; [exact V2|].
        intros u N1 N2. rewrite F2; [|exact N1|intros c' Hc'; apply N2; right; exact Hc'].
        rewrite F1 by (apply N2; left; reflexivity). apply nth_error_lset_ne. auto.
Qed.

Lemma below_children u v : below_node ps u v <-> u = v \/ exists c, parent ps c v /\ below_node ps u c.
Proof.
  split.
  - induction 1 as [v|u p v Hp _ IH]; [left; reflexivity|]. right. destruct IH as [->|(c & Hc & Hb)].
    + exists u. split; [exact Hp|constructor].
    + exists c. split; [exact Hc|]. eapply below_step; eassumption.
  - intros [->|(c & Hc & Hb)]; [constructor|]. eapply below_trans; [exact Hb|]. eapply below_step; [exact Hc|constructor].
Qed.

Lemma node_ok : forall r v d, depth ps v d -> n - d <= r -> exists l, lists v l /\ traverses v l.
Proof.
  induction r as [|r IH]; intros v d Dv Hr; [pose proof (depth_bound _ _ Dv); lia|].
  destruct (children_ok v d Dv (kids n v)) as (L & HL & NL & SL & T).
  - intros c. apply kids_In.
  - apply kids_NoDup.
  - intros c Hc. apply kids_In in Hc. pose proof (depth_bound _ _ Dv).
    apply (IH c (S d)); [eapply parent_depth; eassumption|lia].
  - assert (HL' : forall u, In u (L ++ [v]) <-> below_node ps u v).
    { intros u. rewrite in_app_iff, HL, below_children. cbn [In]. split.
      - intros [(c & Hc & Hb)|[->|[]]]; [|left; reflexivity]. right. exists c. split; [apply kids_In; exact Hc|exact Hb].
      - intros [->|(c & Hc & Hb)]; [right; left; reflexivity|]. left. exists c. split; [apply kids_In; exact Hc|exact Hb]. }
    exists (L ++ [v]). split; [split; [exact HL'|split]|].
    + apply NoDup_snoc; [exact NL|]. intros Hv. apply HL in Hv. destruct Hv as (c & Hc & Hb).
      apply kids_In in Hc. pose proof (below_depth _ _ _ _ _ Hb Dv (parent_depth _ _ _ Hc Dv)). lia.
    + intros u Hu. apply in_app_or in Hu. destruct Hu as [Hu|[<-|[]]].
      * destruct (SL u Hu) as (a & m & b & -> & Hw). exists a, m, (b ++ [v]). split; [|exact Hw].
        rewrite <- !app_assoc. reflexivity.
      * exists [], L, []. split; [rewrite app_nil_l; reflexivity|exact HL'].
    + intros head post stack fuel Lh Rd.
      destruct (Rd v (below_refl _ _)) as (h & Eh & Ch).
      destruct (T head post stack (S fuel) h) as (head' & E & L' & V' & F').
      * exact Lh.
      * exact Eh.
      * exact Ch.
      * intros c u Hc Hb. apply Rd. apply below_children. right. exists c. split; [apply kids_In; exact Hc|exact Hb].
      * exists head'. rewrite app_length. cbn [length].
        replace (2 * (length L + 1) - 1 + fuel) with (2 * length L + S fuel) by lia.
        rewrite E. cbn [dfs_from]. rewrite (proj2 (oget_done _ _ _) V'). cbn [obind].
        rewrite <- app_assoc. split; [reflexivity|]. split; [exact L'|].
        intros u Hu. apply F'.
        -- intros ->. apply Hu. constructor.
        -- intros c Hc Hb. apply Hu. apply below_children. right. exists c. split; [apply kids_In; exact Hc|exact Hb].
Qed.
End Traverse.

Lemma post_order_ok : exists post, post_order ps = Done post /\ is_post_order ps post.
Proof.
  destruct link_ok as (head0 & next & El & Lh0 & Ln & C0). unfold post_order. fold n. rewrite El. cbn [obind].
  destruct (ofold_ok_prefix
    (fun pre (st : list (option nat) * list nat) => let '(head, post) := st in
       length head = n /\ NoDup post /\ nested post /\
       (forall u, In u post <-> exists r, r < length pre /\ root ps r /\ below_node ps u r) /\
       (forall u, u < n -> ~ In u post -> ready next head u))
    (post_order_step (2 * n) next) (combine (seq 0 n) ps)) with (s := (head0, @nil nat))
    as ([head post] & E & (Lh & Np & Sp & Hin & _)).
  - intros pre [node par] rest [head post] Ec (Lh & Np & Sp & Hin & Rd).
    assert (En : nth_error (combine (seq 0 n) ps) (length pre) = Some (node, par)).
    { rewrite Ec. rewrite nth_error_app2 by lia. rewrite Nat.sub_diag. reflexivity. }
    rewrite nth_error_combine, nth_error_seq in En.
    destruct (Nat.ltb_spec (length pre) n) as [Hk|]; [|discriminate].
    destruct (nth_error ps (length pre)) as [par'|] eqn:Ep; [|discriminate].
    injection En as <- ->. cbn [Nat.add]. rewrite app_length. cbn [length].
    unfold post_order_step. cbn [fst snd]. destruct par as [p|].
    + eexists; split; [reflexivity|]. cbn beta iota. split; [exact Lh|]. split; [exact Np|]. split; [exact Sp|]. split; [|exact Rd].
      intros u. rewrite Hin. split; intros (r & Hr & Rr & Hb); exists r; (split; [|auto]); [lia|].
      destruct (Nat.eq_dec r (length pre)) as [->|]; [|lia]. unfold root in Rr. congruence.
    + set (v := length pre) in *.
      assert (Dv : depth ps v 0) by (constructor; exact Ep).
      destruct (node_ok next Ln n v 0 Dv) as (l & (Hl & Nl & Sl) & T); [lia|].
      assert (Dj : forall u, below_node ps u v -> ~ In u post).
      { intros u Hb Hu. apply Hin in Hu. destruct Hu as (r & Hr & Rr & Hb').
        assert (r = v); [|lia]. eapply below_same_depth; [exact Hb'|exact Hb|constructor; exact Rr|exact Dv]. }
      assert (Ll : length l <= n).
      { rewrite <- (seq_length n 0). apply NoDup_incl_length; [exact Nl|]. intros u Hu. apply in_seq.
        apply Hl in Hu. pose proof (below_lt _ _ Hu Hk). lia. }
      destruct (T head post [] (2 * n - (2 * length l - 1))) as (head' & E & L' & F').
      * exact Lh.
      * intros u Hb. apply Rd; [eapply below_lt; eassumption|]. apply Dj; exact Hb.
      * replace (2 * length l - 1 + (2 * n - (2 * length l - 1))) with (2 * n) in E by lia.
        exists (head', post ++ l). split; [exact E|]. split; [exact L'|].
        split; [|split; [|split]].
        -- apply NoDup_app_intro; [exact Np|exact Nl|]. intros u H1 H2. apply Hl in H2. apply (Dj u H2 H1).
        -- apply nested_app; assumption.
        -- intros u. rewrite in_app_iff, Hin, Hl. split.
           ++ intros [(r & Hr & H)|H]; [exists r; split; [lia|exact H]|]. exists v. split; [lia|]. split; [exact Ep|exact H].
           ++ intros (r & Hr & Rr & H). destruct (Nat.eq_dec r v) as [->|]; [right; exact H|]. left. exists r.
              split; [lia|auto].
        -- intros u Hu Nu. rewrite in_app_iff in Nu. destruct (Rd u Hu) as (h & Eh & Ch); [tauto|].
           exists h. split; [|exact Ch]. rewrite F'; [exact Eh|]. rewrite <- Hl. tauto.
  - split; [exact Lh0|]. split; [constructor|]. split; [intros u []|]. split.
    + intros u. cbn [length In]. split; [intros []|]. intros (r & Hr & _). lia.
    + intros u Hu _. apply C0. exact Hu.
  - rewrite E. cbn [obind]. exists post. split; [reflexivity|].
    rewrite combine_length, seq_length in Hin. fold n in Hin. rewrite Nat.min_id in Hin.
    assert (Hall : forall u, In u post <-> u < n).
    { intros u. rewrite Hin. split.
      - intros (r & Hr & _ & Hb). eapply below_lt; eassumption.
      - intros Hu. destruct (Hf u Hu) as (r & Hb & Rr). exists r. split; [eapply nth_error_lt; exact Rr|auto]. }
    split.
    + apply NoDup_Permutation; [exact Np|apply seq_NoDup|]. intros u. rewrite Hall, in_seq. fold n. lia.
    + intros v Hv. apply Sp. apply Hall. exact Hv.
    + intros v p Hvp. destruct (Sp p) as (a & m & b & -> & Hw); [apply Hall; eapply parent_lt; exact Hvp|].
      assert (Hv : In v (m ++ [p])) by (apply Hw; eapply below_step; [exact Hvp|constructor]).
      apply in_app_or in Hv. destruct Hv as [Hv|[->|[]]].
      * destruct (in_split _ _ Hv) as (m1 & m2 & ->). exists (a ++ m1), m2, b.
        rewrite <- !app_assoc. reflexivity.
      * exfalso. destruct (depth_ex v) as [d Hd]; [eapply parent_lt; exact Hvp|].
        pose proof (depth_fun _ _ _ Hd _ (parent_depth _ _ _ Hvp Hd)). lia.
Qed.

(* ----- depth levels ----- *)

Definition leveled (levels : list nat) : Prop :=
  length levels = n /\ forall v l, nth_error levels v = Some l -> l = 0 \/ depth ps v l.

(** Going up: the path's nodes, newest first, are a chain of parents. *)
Fixpoint climbs (path : list nat) (top : nat) : Prop :=
  match path with
  | [] => True
  | v :: path => parent ps v top /\ climbs path v
  end.

Lemma walk_up_ok levels : leveled levels -> forall d node fuel path, depth ps node d -> d < fuel -> climbs path node ->
  exists top path' l, walk_up fuel ps levels path node = Done (top, path' ++ path) /\
    nth_error levels top = Some l /\ depth ps top l /\ climbs (path' ++ path) top /\
    (top = node \/ In node path').
Proof.
  intros (Ll & Hl). induction d as [|d IH]; intros node fuel path Hd Hfu Hc; (destruct fuel as [|fuel]; [lia|]);
    cbn [walk_up]; (destruct (nth_error_ex levels node) as [x Hx]; [rewrite Ll; eapply depth_lt; exact Hd|]);
    rewrite (proj2 (oget_done _ _ _) Hx); cbn [obind].
  - inversion Hd as [? Hr|]; subst. destruct (Nat.eqb_spec x 0) as [->|N]; cbn [negb].
    + rewrite (proj2 (oget_done _ _ _) Hr). cbn [obind]. exists node, [], 0. auto 6.
    + destruct (Hl node x Hx) as [|Hd']; [contradiction|]. exists node, [], x. auto 6.
  - inversion Hd as [|? p d' Hp Hd']; subst. destruct (Nat.eqb_spec x 0) as [->|N]; cbn [negb].
    + rewrite (proj2 (oget_done _ _ _) Hp). cbn [obind].
      destruct (IH p fuel (node :: path) Hd') as (top & path' & l & E & Ht & Dt & Ct & _); [lia|split; assumption|].
      exists top, (path' ++ [node]), l. rewrite <- app_assoc. cbn [app].
      split; [exact E|]. split; [exact Ht|]. split; [exact Dt|]. split; [exact Ct|].
      right. apply in_or_app; right; left; reflexivity.
    + destruct (Hl node x Hx) as [|Hd2]; [contradiction|]. exists node, [], x. auto 6.
Qed.

Definition max_of (levels : list nat) (m : nat) : Prop :=
  (forall v l, nth_error levels v = Some l -> l <= m) /\
  (m = 0 \/ exists v, nth_error levels v = Some m).

Lemma walk_down_ok : forall path top l levels m, leveled levels -> max_of levels m ->
  climbs path top -> depth ps top l ->
  exists levels' m', walk_down path l levels m = Done (levels', m') /\ leveled levels' /\ max_of levels' m' /\
    (forall v, In v path -> exists l', nth_error levels' v = Some l' /\ depth ps v l') /\
    (forall v l', nth_error levels v = Some l' -> depth ps v l' -> nth_error levels' v = Some l').
Proof.
  induction path as [|v path IH]; intros top l levels m Hlv (Hm & Hm') Hc Hd; cbn [walk_down].
  - exists levels, m. split; [reflexivity|]. split; [exact Hlv|]. split; [exact (conj Hm Hm')|]. split; [intros v []|auto].
  - destruct Hc as [Hp Hc]. pose proof (parent_depth _ _ _ Hp Hd) as Dv. destruct Hlv as (Ll & Hl).
    assert (Hv : v < n) by (eapply depth_lt; exact Dv).
    rewrite oset_ok by lia. cbn [obind]. rewrite Nat.add_1_r.
    destruct (IH v (S l) (lset levels v (S l)) (Nat.max m (S l))) as (levels' & m' & E & Lv & Mx & Hin & Hk).
    + split; [rewrite lset_length; exact Ll|]. intros u x. rewrite nth_error_lset.
      destruct (Nat.eqb_spec v u) as [<-|N]; [|apply Hl].
      destruct (Nat.ltb_spec v (length levels)); [|discriminate]. intros Q; injection Q as <-. right; exact Dv.
    + split.
      * intros u x. rewrite nth_error_lset. destruct (Nat.eqb_spec v u) as [<-|N].
        -- destruct (Nat.ltb_spec v (length levels)); [|discriminate]. intros Q; injection Q as <-. lia.
        -- intros Hx. apply Hm in Hx. lia.
      * right. destruct (Nat.max_spec m (S l)) as [[_ ->]|[Hle ->]].
        -- exists v. apply nth_error_lset_eq. lia.
        -- destruct Hm' as [->|[u Hu]]; [lia|]. exists u. rewrite nth_error_lset.
           destruct (Nat.eqb_spec v u) as [<-|N]; [|exact Hu].
           destruct (Hl v m Hu) as [->|Dm]; [lia|]. rewrite (depth_fun _ _ _ Dv _ Dm).
           destruct (Nat.ltb_spec v (length levels)); [reflexivity|lia].
    + exact Hc.
    + exact Dv.
    + exists levels', m'. split; [exact E|]. split; [exact Lv|]. split; [exact Mx|].
      assert (Hvl : nth_error levels' v = Some (S l)) by (apply Hk; [apply nth_error_lset_eq; lia|exact Dv]).
      split.
      * intros u [<-|Hu]; [exists (S l); auto|apply Hin; exact Hu].
      * intros u l' Hu Du. destruct (Nat.eq_dec v u) as [<-|N].
        -- rewrite (depth_fun _ _ _ Du _ Dv). exact Hvl.
        -- apply Hk; [|exact Du]. rewrite nth_error_lset_ne by exact N. exact Hu.
Qed.

Lemma levels_ok : exists levels m, node_depth_levels ps = Done (levels, m) /\
  length levels = n /\ (forall v l, nth_error levels v = Some l -> depth ps v l) /\ max_of levels m.
Proof.
  unfold node_depth_levels. fold n.
  destruct (ofold_ok_prefix
    (fun pre (st : list nat * nat) => leveled (fst st) /\ max_of (fst st) (snd st) /\
       forall v, In v pre -> exists l, nth_error (fst st) v = Some l /\ depth ps v l)
    (depth_step ps) (seq 0 n)) with (s := (repeat 0 n, 0)) as ([levels m] & E & Lv & Mx & Hd).
  - intros pre node post [levels m] El (Lv & Mx & Hd). cbn [fst snd] in *.
    assert (Hn : node < n).
    { assert (H : In node (seq 0 n)) by (rewrite El; apply in_or_app; right; left; reflexivity). apply in_seq in H. lia. }
    destruct (depth_ex node Hn) as [d Dn]. unfold depth_step. fold n.
    destruct (walk_up_ok levels Lv d node (S n) [] Dn) as (top & path & l & E & Ht & Dt & Ct & Hor).
    { pose proof (depth_bound _ _ Dn). lia. } { exact Logic.I. }
    rewrite E. cbn [obind]. rewrite (proj2 (oget_done _ _ _) Ht). cbn [obind].
    destruct (walk_down_ok (path ++ []) top l levels m Lv Mx Ct Dt) as (levels' & m' & E' & Lv' & Mx' & Hin & Hk).
    exists (levels', m'). split; [exact E'|]. cbn [fst snd]. split; [exact Lv'|]. split; [exact Mx'|].
    intros v Hv. apply in_app_or in Hv. destruct Hv as [Hv|[<-|[]]].
    + destruct (Hd v Hv) as (x & Hx & Dx). exists x. split; [apply Hk; assumption|exact Dx].
    + rewrite app_nil_r in *.
      destruct Hor as [->|Hi]; [|apply Hin; exact Hi]. exists l. split; [apply Hk; assumption|exact Dt].
  - cbn [fst snd]. split; [split; [apply repeat_length|]|split; [split|]].
    + intros v l H. rewrite nth_error_repeat in H. destruct (v <? n); [injection H as <-; auto|discriminate].
    + intros v l H. rewrite nth_error_repeat in H. destruct (v <? n); [injection H as <-; auto|discriminate].
    + left; reflexivity.
    + intros v [].
  - cbn [fst snd] in *. exists levels, m. split; [exact E|]. destruct Lv as (Ll & Hl). split; [exact Ll|].
    split; [|exact Mx]. intros v l Hv.
    destruct (Hd v) as (l' & Hl' & Dl); [apply in_seq; apply nth_error_lt in Hv; lia|]. congruence.
Qed.
End Forest.
