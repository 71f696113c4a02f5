(** The row permutation: every column gets a row with an entry below it, and the
    other rows follow *)
From Coq Require Import List Arith Bool Lia ZArith Permutation.
From Verif Require Import Outcome Lib ModelSparse ModelForest Spec_Forest Proofs_Forest
  ModelCholesky Proofs_Counts.
Import ListNotations.
Local Open Scope nat_scope.

Section Rows.
Context (m n : nat) (ps : list (option nat)) (Ln : length ps = n)
  (Hup : forall u p, parent ps u p -> u < p < n)
  (fcs : list (option nat)) (Lf : length fcs = m)
  (Hfc : forall i f, nth_error fcs i = Some (Some f) -> f < n).
Notation below := (below_node ps).
Notation first i f := (nth_error fcs i = Some (Some f)).

Lemma r_le u v : below u v -> u <= v.
Proof. induction 1 as [|u p v Hp _ IH]; [lia|]. apply Hup in Hp. lia. Qed.
Lemma r_eq u v : below u v -> below v u -> u = v.
Proof. intros H1 H2. apply r_le in H1. apply r_le in H2. lia. Qed.
Lemma r_order x u v : below x u -> below x v -> u <= v -> below u v.
Proof.
  intros H1 H2 Hle. destruct (below_compare _ _ _ H1 _ H2) as [H|H]; [exact H|].
  pose proof (r_le _ _ H). replace v with u by lia. constructor.
Qed.
Lemma r_dec u v : below u v \/ ~ below u v.
Proof.
  remember (n - u) as d eqn:Ed. revert u Ed. induction d as [d IH] using lt_wf_ind. intros u Ed.
  destruct (Nat.eq_dec u v) as [->|N]; [left; constructor|].
  destruct (nth_error ps u) as [[p|]|] eqn:Ep.
  - pose proof (Hup _ _ Ep). destruct (IH (n - p)) with (u := p) as [H1|H1]; [lia|reflexivity| |].
    + left. eapply below_step; eassumption.
    + right. intros H2. destruct (below_inv _ _ _ _ Ep H2); [congruence|contradiction].
  - right. intros H2. apply N. symmetry. eapply below_root; [exact Ep|exact H2].
  - right. intros H2. inversion H2 as [|? p' ? Hp' _]; [congruence|]. unfold parent in Hp'. congruence.
Qed.

(* ----- the queues ----- *)

Record queues (k : nat) (q : row_queues) (Q : nat -> list nat) : Prop := Queues {
  qs_next : length (q_next q) = m;
  qs_head : length (q_head q) = n;
  qs_tail : length (q_tail q) = n;
  qs_count : length (q_count q) = n;
  qs_chain : forall c, k <= c -> c < n -> exists h, nth_error (q_head q) c = Some h /\ chain (q_next q) h (Q c);
  qs_length : forall c, k <= c -> c < n -> nth_error (q_count q) c = Some (Z.of_nat (length (Q c)));
  qs_last : forall c l t, k <= c -> c < n -> Q c = l ++ [t] -> nth_error (q_tail q) c = Some (Some t);
  qs_nodup : forall c, k <= c -> c < n -> NoDup (Q c);
  qs_rows : forall c i, k <= c -> c < n -> In i (Q c) -> i < m;
  qs_apart : forall c d i, k <= c -> c < n -> k <= d -> d < n -> In i (Q c) -> In i (Q d) -> c = d
}.

Definition is_first (c i : nat) : bool := match nth_error fcs i with Some (Some f) => f =? c | _ => false end.
Lemma is_first_spec c i : is_first c i = true <-> first i c.
Proof.
  unfold is_first. destruct (nth_error fcs i) as [[f|]|]; [|split; discriminate|split; discriminate].
  rewrite Nat.eqb_eq. split; [intros ->; reflexivity|congruence].
Qed.

Lemma enqueue_ok : exists q, ofold (enqueue_row fcs) (rev (seq 0 m))
    (RowQueues (repeat (Some 0) m) (repeat None n) (repeat None n) (repeat 0%Z n)) = Done q /\
  queues 0 q (fun c => filter (is_first c) (seq 0 m)).
Proof.
  destruct (ofold_ok_prefix (fun pre q => queues 0 q (fun c => filter (is_first c) (rev pre)))
    (enqueue_row fcs) (rev (seq 0 m))) with (s := RowQueues (repeat (Some 0) m) (repeat None n) (repeat None n) (repeat 0%Z n))
    as (q & E & I).
  - intros pre i suf q El I. unfold enqueue_row.
    assert (Hi : In i (rev (seq 0 m))) by (rewrite El; apply in_or_app; right; left; reflexivity).
    apply in_rev, in_seq in Hi. assert (ND : ~ In i pre).
    { pose proof (NoDup_rev (seq_NoDup m 0)) as ND. rewrite El in ND. apply NoDup_remove_2 in ND. intros H. apply ND.
      apply in_or_app; left; exact H. }
    assert (Nin : forall c, ~ In i (filter (is_first c) (rev pre))).
    { intros c H. apply filter_In in H. destruct H as [H _]. apply in_rev in H. contradiction. }
    rewrite rev_app_distr. cbn [rev app].
    destruct (nth_error_ex fcs i) as [o Ho]; [lia|]. rewrite (proj2 (oget_done _ _ _) Ho). cbn [obind].
    destruct o as [k|].
    2: { exists q. split; [reflexivity|].
      assert (Ef : forall c, filter (is_first c) (i :: rev pre) = filter (is_first c) (rev pre)).
      { intros c. cbn [filter]. unfold is_first at 1. rewrite Ho. reflexivity. }
      destruct I as [I1 I2 I3 I4 I5 I6 I7 I8 I9 I10]. constructor; auto; intros c; rewrite ?Ef; auto.
      - intros l t H1 H2 E. eapply I7; eassumption.
      - intros j H1 H2. apply I9; assumption.
      - intros d j H1 H2 H3 H4. rewrite !Ef. apply I10; assumption. }
    pose proof (Hfc _ _ Ho) as Hk.
    assert (Ef : forall c, filter (is_first c) (i :: rev pre) =
      if c =? k then i :: filter (is_first c) (rev pre) else filter (is_first c) (rev pre)).
    { intros c. cbn [filter]. unfold is_first at 1. rewrite Ho, (Nat.eqb_sym c k). destruct (k =? c); reflexivity. }
    destruct I as [I1 I2 I3 I4 I5 I6 I7 I8 I9 I10].
    assert (Hge : forall c, 0 <= c) by (intros; lia).
    rewrite (proj2 (oget_done _ _ _) (I6 k (Hge k) Hk)). cbn [obind].
    assert (Et : exists tail, (if (Z.of_nat (length (filter (is_first k) (rev pre))) =? 0)%Z
        then oset (q_tail q) k (Some i) else Done (q_tail q)) = Done tail /\ length tail = n /\
        (forall c, c <> k -> nth_error tail c = nth_error (q_tail q) c) /\
        forall l t, i :: filter (is_first k) (rev pre) = l ++ [t] -> nth_error tail k = Some (Some t)).
    { destruct (Z.eqb_spec (Z.of_nat (length (filter (is_first k) (rev pre)))) 0) as [Z0|Z0].
      - rewrite oset_ok by lia. eexists; split; [reflexivity|]. rewrite lset_length. split; [exact I3|]. split.
        + intros c Nc. apply nth_error_lset_ne. congruence.
        + intros l t E. rewrite nth_error_lset_eq by lia. destruct (filter (is_first k) (rev pre)) as [|x y]; [|cbn in Z0; lia].
          destruct l as [|z l]; [cbn in E; congruence|]. destruct l; discriminate.
      - eexists; split; [reflexivity|]. split; [exact I3|]. split; [reflexivity|]. intros l t E.
        destruct l as [|z l]; cbn [app] in E.
        + injection E as _ E. rewrite E in Z0. cbn in Z0. lia.
        + injection E as _ E. eapply I7; [apply Hge|exact Hk|exact E]. }
    destruct Et as (tail & -> & Lt & Tne & Teq). cbn [obind]. rewrite oset_ok by lia. cbn [obind].
    destruct (I5 k (Hge k) Hk) as (h & Eh & Ch). rewrite (proj2 (oget_done _ _ _) Eh). cbn [obind].
    rewrite oset_ok by lia. cbn [obind]. rewrite oset_ok by lia. cbn [obind]. eexists; split; [reflexivity|].
    constructor; cbn [q_next q_head q_tail q_count].
    + rewrite lset_length. exact I1.
    + rewrite lset_length. exact I2.
    + exact Lt.
    + rewrite lset_length. exact I4.
    + intros c _ Hc. rewrite Ef, nth_error_lset, I2. destruct (Nat.ltb_spec k n); [|lia]. rewrite (Nat.eqb_sym c k).
      destruct (Nat.eqb_spec k c) as [<-|N].
      * exists (Some i). split; [reflexivity|]. split; [reflexivity|]. exists h. split; [apply nth_error_lset_eq; lia|].
        apply chain_set; [exact Ch|apply Nin].
      * destruct (I5 c (Hge c) Hc) as (h' & Eh' & Ch'). exists h'. split; [exact Eh'|]. apply chain_set; [exact Ch'|apply Nin].
    + intros c _ Hc. rewrite Ef, nth_error_lset, I4. destruct (Nat.ltb_spec k n); [|lia]. rewrite (Nat.eqb_sym c k).
      destruct (Nat.eqb_spec k c) as [<-|N]; [|apply I6; [lia|exact Hc]]. cbn [length]. f_equal. lia.
    + intros c l t _ Hc. rewrite Ef. destruct (Nat.eqb_spec c k) as [->|N]; [apply Teq|].
      intros E. rewrite Tne by exact N. eapply I7; [apply Hge|exact Hc|exact E].
    + intros c _ Hc. rewrite Ef. destruct (Nat.eqb_spec c k) as [->|N]; [|apply I8; [lia|exact Hc]].
      constructor; [apply Nin|]. apply I8; [lia|exact Hc].
    + intros c j _ Hc. rewrite Ef. destruct (Nat.eqb_spec c k) as [->|N]; [|apply I9; [lia|exact Hc]].
      intros [<-|H]; [lia|]. apply (I9 k j (Hge k) Hc H).
    + intros c d j _ Hc _ Hd. rewrite !filter_In, !is_first_spec. intros [_ H1] [_ H2]. congruence.
  - constructor; cbn [q_next q_head q_tail q_count rev filter]; try apply repeat_length.
    + intros c _ Hc. exists None. rewrite nth_error_repeat, (proj2 (Nat.ltb_lt _ _)) by exact Hc. split; reflexivity.
    + intros c _ Hc. rewrite nth_error_repeat, (proj2 (Nat.ltb_lt _ _)) by exact Hc. reflexivity.
    + intros c l t _ _ E. destruct l; discriminate.
    + constructor.
    + intros c i _ _ [].
    + intros c d i _ _ _ _ [].
  - exists q. split; [exact E|]. rewrite rev_involutive in I. exact I.
Qed.

Lemma chain_join next t : forall h l hp l2, chain next h l -> (exists l0, l = l0 ++ [t]) -> NoDup l -> ~ In t l2 ->
  chain next hp l2 -> t < length next -> chain (lset next t hp) h (l ++ l2).
Proof.
  intros h l. revert h. induction l as [|x l IH]; intros h hp l2 C (l0 & E) N Nt C2 Lt; [destruct l0; discriminate|].
  destruct C as (-> & h' & Eh & C). inversion N as [|? ? Nx Nl]; subst. cbn [app chain]. split; [reflexivity|].
  destruct l0 as [|y l0]; cbn [app] in E.
  - injection E as -> ->. exists hp. split; [apply nth_error_lset_eq; exact Lt|]. cbn [app]. apply chain_set; assumption.
  - injection E as -> E. exists h'. split.
    + rewrite nth_error_lset_ne; [exact Eh|]. intros <-. apply Nx. rewrite E. apply in_or_app; right; left; reflexivity.
    + apply IH; eauto.
Qed.

(** The first column is below [c], and below [c] its ancestors are before [k]. *)
Definition waits (k i c : nat) : Prop :=
  exists f, first i f /\ below f c /\ forall c', below f c' -> below c' c -> c' <> c -> c' < k.

Record assigned (k : nat) (perm : list (option nat)) (Q : nat -> list nat) : Prop := Assigned {
  as_length : length perm = m + n;
  as_queue : forall c i, k <= c -> c < n -> In i (Q c) <-> i < m /\ nth_error perm i = Some None /\ waits k i c;
  as_below : forall i c, i < m -> nth_error perm i = Some (Some c) -> c < k /\ exists f, first i f /\ below f c;
  as_inj : forall i j c, i < m -> j < m -> nth_error perm i = Some (Some c) -> nth_error perm j = Some (Some c) -> i = j;
  as_all : forall c, c < k -> exists i, i < m /\ nth_error perm i = Some (Some c)
}.

Lemma assign_ok k fict perm q Q : k < n -> Q k <> [] -> queues k q Q -> assigned k perm Q ->
  exists perm' q' Q', assign_row ps (fict, perm, q) k = Done (fict, perm', q') /\ queues (S k) q' Q' /\ assigned (S k) perm' Q'.
Proof.
  intros Hk Ne QI AI.
  destruct (Q k) as [|i t] eqn:EQ; [congruence|]. clear Ne.
  destruct QI as [I1 I2 I3 I4 I5 I6 I7 I8 I9 I10]. destruct AI as [A1 A2 A3 A4 A5].
  assert (Hik : In i (Q k)) by (rewrite EQ; left; reflexivity).
  destruct (proj1 (A2 k i (le_n k) Hk) Hik) as (Him & Hin & Hwi).
  assert (Nit : ~ In i t /\ NoDup t). { pose proof (I8 k (le_n k) Hk) as ND. rewrite EQ in ND. inversion ND; auto. }
  destruct (I5 k (le_n k) Hk) as (h & Eh & Ch). rewrite EQ in Ch. destruct Ch as (-> & h' & Eh' & Ch').
  pose proof (I6 k (le_n k) Hk) as Ec. rewrite EQ in Ec. cbn [length] in Ec.
  set (Q' := fun c => match nth_error ps k with Some (Some p) => if c =? p then t ++ Q c else Q c | _ => Q c end).
  set (perm' := lset perm i (Some k)).
  assert (Apart : forall c j, S k <= c -> c < n -> In j t -> ~ In j (Q c)).
  { intros c j H1 H2 H3 H4. assert (k = c); [|lia]. apply (I10 k c j); [lia|exact Hk|lia|exact H2| |exact H4].
    rewrite EQ. right; exact H3. }
  assert (Apart0 : forall c, S k <= c -> c < n -> ~ In i (Q c)).
  { intros c H1 H2 H4. assert (k = c); [|lia]. apply (I10 k c i); [lia|exact Hk|lia|exact H2|exact Hik|exact H4]. }
  (* the assignment *)
  assert (AI' : assigned (S k) perm' Q').
  { constructor.
    - unfold perm'. rewrite lset_length. exact A1.
    - intros c j Hc Hcn. unfold perm'. rewrite nth_error_lset. destruct (Nat.ltb_spec i (length perm)); [|lia].
      assert (Old : In j (Q c) <-> j < m /\ nth_error perm j = Some None /\ waits k j c) by (apply A2; [lia|exact Hcn]).
      assert (Oldk : In j (Q k) <-> j < m /\ nth_error perm j = Some None /\ waits k j k) by (apply A2; [lia|exact Hk]).
      rewrite EQ in Oldk. cbn [In] in Oldk.
      destruct (Nat.eqb_spec i j) as [<-|Nj].
      + split; [|intros (_ & HH & _); discriminate]. intros Hi. exfalso. unfold Q' in Hi.
        destruct (nth_error ps k) as [[p|]|]; [|apply (Apart0 c Hc Hcn Hi)|apply (Apart0 c Hc Hcn Hi)].
        destruct (c =? p); [apply in_app_or in Hi; destruct Hi as [Hi|Hi]; [apply (proj1 Nit Hi)|]|]; apply (Apart0 c Hc Hcn Hi).
      + split.
        * intros Hi.
          assert (Hcase : In j (Q c) \/ (In j t /\ parent ps k c)).
          { unfold Q' in Hi. unfold parent. destruct (nth_error ps k) as [[p|]|]; [|auto|auto].
            destruct (Nat.eqb_spec c p) as [->|]; [|auto]. apply in_app_or in Hi. tauto. }
          destruct Hcase as [Hj|[Hj Hp]].
          -- apply Old in Hj. destruct Hj as (J1 & J2 & f & J3 & J4 & J5). split; [exact J1|]. split; [exact J2|].
             exists f. split; [exact J3|]. split; [exact J4|]. intros c' C1 C2 C3. specialize (J5 c' C1 C2 C3). lia.
          -- destruct (proj1 Oldk (or_intror Hj)) as (J1 & J2 & f & J3 & J4 & J5). split; [exact J1|]. split; [exact J2|].
             exists f. split; [exact J3|]. split; [eapply below_trans; [exact J4|]; eapply below_step; [exact Hp|constructor]|].
             intros c' C1 C2 C3. destruct (below_compare _ _ _ C1 _ J4) as [B|B]; [apply r_le in B; lia|].
             destruct (below_inv _ _ _ _ Hp B) as [->|B']; [lia|]. exfalso. apply C3. apply r_eq; assumption.
        * intros (J1 & J2 & f & J3 & J4 & J5).
          destruct (r_dec f k) as [B|B].
          -- destruct (r_dec k c) as [B2|B2].
             ++ assert (Hj : In j t).
                { assert (Hjk : i = j \/ In j t); [|destruct Hjk; [contradiction|assumption]].
                  apply Oldk. split; [exact J1|]. split; [exact J2|]. exists f. split; [exact J3|]. split; [exact B|].
                  intros c' C1 C2 C3. apply r_le in C2. lia. }
                destruct (nth_error_ex ps k) as [o Ho]; [lia|]. destruct o as [p|].
                2: { pose proof (below_root _ _ _ Ho B2). lia. }
                destruct (below_inv _ _ _ _ Ho B2) as [->|B3]; [lia|].
                assert (p = c).
                { destruct (Nat.eq_dec p c) as [|N]; [assumption|]. pose proof (Hup _ _ Ho).
                  assert (p < S k); [|lia]. apply J5; [|exact B3|exact N]. eapply below_trans; [exact B|].
                  eapply below_step; [exact Ho|constructor]. }
                subst p. unfold Q'. rewrite Ho, Nat.eqb_refl. apply in_or_app; left; exact Hj.
             ++ assert (Hj : In j (Q c)).
                { apply Old. split; [exact J1|]. split; [exact J2|]. exists f. split; [exact J3|]. split; [exact J4|].
                  intros c' C1 C2 C3. pose proof (J5 c' C1 C2 C3). destruct (Nat.eq_dec c' k) as [->|]; [contradiction|lia]. }
                unfold Q'. destruct (nth_error ps k) as [[p|]|]; [|exact Hj|exact Hj]. destruct (c =? p); [|exact Hj].
                apply in_or_app; right; exact Hj.
          -- assert (Hj : In j (Q c)).
             { apply Old. split; [exact J1|]. split; [exact J2|]. exists f. split; [exact J3|]. split; [exact J4|].
               intros c' C1 C2 C3. pose proof (J5 c' C1 C2 C3). destruct (Nat.eq_dec c' k) as [->|]; [contradiction|lia]. }
             unfold Q'. destruct (nth_error ps k) as [[p|]|]; [|exact Hj|exact Hj]. destruct (c =? p); [|exact Hj].
             apply in_or_app; right; exact Hj.
    - intros j c Hj. unfold perm'. rewrite nth_error_lset. destruct (Nat.ltb_spec i (length perm)); [|lia].
      destruct (Nat.eqb_spec i j) as [<-|N].
      + intros [= <-]. split; [lia|]. destruct Hwi as (f & F1 & F2 & _). exists f. auto.
      + intros Hp. destruct (A3 j c Hj Hp) as (H1 & H2). split; [lia|exact H2].
    - intros j j' c Hj Hj'. unfold perm'. rewrite !nth_error_lset. destruct (Nat.ltb_spec i (length perm)); [|lia].
      destruct (Nat.eqb_spec i j) as [<-|N], (Nat.eqb_spec i j') as [<-|N'].
      + reflexivity.
      + intros [= <-] H2. destruct (A3 j' k Hj' H2). lia.
      + intros H2 [= <-]. destruct (A3 j k Hj H2). lia.
      + apply A4; assumption.
    - intros c Hc. unfold perm'. destruct (Nat.eq_dec c k) as [->|N].
      + exists i. split; [exact Him|]. apply nth_error_lset_eq. lia.
      + destruct (A5 c) as (j & Hj & Pj); [lia|]. exists j. split; [exact Hj|]. rewrite nth_error_lset_ne; [exact Pj|]. congruence. }
  unfold assign_row. rewrite (proj2 (oget_done _ _ _) Eh). cbn [obind]. rewrite oset_ok by lia. cbn [obind]. fold perm'.
  rewrite (proj2 (oget_done _ _ _) Ec). cbn [obind]. rewrite oset_ok by lia. cbn [obind q_next q_head q_tail q_count].
  assert (Base : queues (S k) (RowQueues (q_next q) (q_head q) (q_tail q)
      (lset (q_count q) k (Z.of_nat (S (length t)) - 1)%Z)) Q).
  { constructor; cbn [q_next q_head q_tail q_count]; auto.
    - rewrite lset_length. exact I4.
    - intros c H1 H2. apply I5; lia.
    - intros c H1 H2. rewrite nth_error_lset_ne by lia. apply I6; lia.
    - intros c l t' H1 H2. apply I7; lia.
    - intros c H1 H2. apply I8; lia.
    - intros c j H1 H2. apply I9; lia.
    - intros c d j H1 H2 H3 H4. apply I10; lia. }
  destruct (Z.leb_spec (Z.of_nat (S (length t)) - 1) 0) as [Hle|Hgt].
  - assert (t = []) by (destruct t; [reflexivity|cbn [length] in Hle; lia]). subst t.
    exists perm'; eexists; exists Q'. split; [reflexivity|]. split; [|exact AI'].
    assert (Same : forall c, Q' c = Q c).
    { intros c. unfold Q'. destruct (nth_error ps k) as [[p|]|]; try reflexivity. destruct (c =? p); reflexivity. }
    destruct Base as [J1 J2 J3 J4 J5 J6 J7 J8 J9 J10]. constructor; auto; intros c; rewrite ?Same; auto.
    + intros l t' H1 H2. apply J7; assumption.
    + intros j H1 H2. apply J9; assumption.
    + intros d j H1 H2 H3 H4. rewrite !Same. apply J10; assumption.
  - destruct (nth_error_ex ps k) as [o Ho]; [lia|]. rewrite (proj2 (oget_done _ _ _) Ho). cbn [obind]. destruct o as [p|].
    2: { exists perm'; eexists; exists Q'. split; [reflexivity|]. split; [|exact AI']. unfold Q'. rewrite Ho. exact Base. }
    pose proof (Hup _ _ Ho) as Hp.
    assert (Et : exists l0 tk, t = l0 ++ [tk]).
    { destruct (@exists_last _ t) as (l0 & tk & E); [|eauto]. intros ->. cbn [length] in Hgt. lia. }
    destruct Et as (l0 & tk & Et).
    assert (Htk : nth_error (q_tail q) k = Some (Some tk)).
    { apply (I7 k (i :: l0) tk (le_n k) Hk). rewrite EQ, Et. reflexivity. }
    assert (Htm : tk < m).
    { apply (I9 k tk (le_n k) Hk). rewrite EQ, Et. right. apply in_or_app; right; left; reflexivity. }
    assert (Hint : In tk t) by (rewrite Et; apply in_or_app; right; left; reflexivity).

    assert (Ecp : oget (lset (q_count q) k (Z.of_nat (S (length t)) - 1)%Z) p = Done (Z.of_nat (length (Q p)))).
    { apply oget_done. rewrite nth_error_lset_ne by lia. apply I6; lia. }
    rewrite Ecp. cbn [obind]. rewrite (proj2 (oget_done _ _ _) Htk). cbn [obind].
    assert (Etl : exists tail, (if (Z.of_nat (length (Q p)) =? 0)%Z then oset (q_tail q) p (Some tk) else Done (q_tail q)) = Done tail /\
       length tail = n /\ (forall c, c <> p -> nth_error tail c = nth_error (q_tail q) c) /\
       forall l x, t ++ Q p = l ++ [x] -> nth_error tail p = Some (Some x)).
    { destruct (Z.eqb_spec (Z.of_nat (length (Q p))) 0) as [Z0|Z0].
      - rewrite oset_ok by lia. eexists; split; [reflexivity|]. rewrite lset_length. split; [exact I3|]. split.
        + intros c Nc. apply nth_error_lset_ne. congruence.
        + intros l x E. rewrite nth_error_lset_eq by lia. destruct (Q p) as [|y z]; [|cbn in Z0; lia].
          rewrite app_nil_r, Et in E. apply app_inj_tail in E. destruct E as [_ ->]. reflexivity.
      - eexists; split; [reflexivity|]. split; [exact I3|]. split; [reflexivity|]. intros l x E.
        destruct (@exists_last _ (Q p)) as (l1 & y & Ey); [intros En; rewrite En in Z0; cbn in Z0; lia|].
        rewrite Ey, app_assoc in E. apply app_inj_tail in E. destruct E as [_ <-].
        apply (I7 p l1 y); [lia|lia|exact Ey]. }
    destruct Etl as (tail & -> & Lt & Tne & Teq). cbn [obind].
    assert (Htk' : nth_error tail k = Some (Some tk)) by (rewrite Tne by lia; exact Htk).
    rewrite (proj2 (oget_done _ _ _) Htk'). cbn [obind ounwrap].
    destruct (I5 p) as (hp & Ehp & Chp); [lia|lia|]. rewrite (proj2 (oget_done _ _ _) Ehp). cbn [obind].
    rewrite oset_ok by lia. cbn [obind].
    assert (Eni : nth_error (lset (q_next q) tk hp) i = Some h').
    { rewrite nth_error_lset_ne; [exact Eh'|]. intros <-. apply (proj1 Nit). exact Hint. }
    rewrite (proj2 (oget_done _ _ _) Eni). cbn [obind]. rewrite oset_ok by lia. cbn [obind].
    rewrite oset_ok by (rewrite lset_length; lia). cbn [obind].
    exists perm'; eexists; exists Q'. split; [reflexivity|]. split; [|exact AI'].
    assert (EQp : forall c, Q' c = if c =? p then t ++ Q c else Q c) by (intros c; unfold Q'; rewrite Ho; reflexivity).
    assert (Tap : forall c, S k <= c -> c < n -> ~ In tk (Q c)) by (intros c H1 H2; apply Apart; assumption).
    constructor; cbn [q_next q_head q_tail q_count].
    + rewrite lset_length. exact I1.
    + rewrite lset_length. exact I2.
    + exact Lt.
    + rewrite !lset_length. exact I4.
    + intros c H1 H2. rewrite EQp, nth_error_lset, I2. destruct (Nat.ltb_spec p n); [|lia]. rewrite (Nat.eqb_sym c p).
      destruct (Nat.eqb_spec p c) as [<-|N].
      * exists h'. split; [reflexivity|]. apply chain_join; [exact Ch'|eauto|apply Nit|apply Tap; lia|exact Chp|lia].
      * destruct (I5 c) as (hc & Ehc & Chc); [lia|exact H2|]. exists hc. split; [exact Ehc|]. apply chain_set; [exact Chc|].
        apply Tap; assumption.
    + intros c H1 H2. rewrite EQp, nth_error_lset, lset_length, I4. destruct (Nat.ltb_spec p n); [|lia]. rewrite (Nat.eqb_sym c p).
      destruct (Nat.eqb_spec p c) as [<-|N].
      * rewrite app_length. f_equal. lia.
      * rewrite nth_error_lset_ne by lia. apply I6; lia.
    + intros c l x H1 H2. rewrite EQp. destruct (Nat.eqb_spec c p) as [->|N]; [apply Teq|].
      intros E. rewrite Tne by exact N. apply (I7 c l x); [lia|exact H2|exact E].
    + intros c H1 H2. rewrite EQp. destruct (Nat.eqb_spec c p) as [->|N]; [|apply I8; lia].
      apply NoDup_app_intro; [apply Nit|apply I8; lia|]. intros x Hx. apply Apart; [exact H1|exact H2|exact Hx].
    + intros c j H1 H2. rewrite EQp. destruct (Nat.eqb_spec c p) as [->|N]; [|apply I9; lia].
      intros Hj. apply in_app_or in Hj. destruct Hj as [Hj|Hj]; [|apply (I9 p j); [lia|exact H2|exact Hj]].
      apply (I9 k j (le_n k) Hk). rewrite EQ. right; exact Hj.
    + intros c d j H1 H2 H3 H4. rewrite !EQp.
      destruct (Nat.eqb_spec c p) as [->|N], (Nat.eqb_spec d p) as [->|N']; intros Hc Hd.
      * reflexivity.
      * apply in_app_or in Hc. destruct Hc as [Hc|Hc]; [exfalso; apply (Apart d j H3 H4 Hc Hd)|].
        apply (I10 p d j); [lia|exact H2|lia|exact H4|exact Hc|exact Hd].
      * apply in_app_or in Hd. destruct Hd as [Hd|Hd]; [exfalso; apply (Apart c j H1 H2 Hd Hc)|].
        apply (I10 c p j); [lia|exact H2|lia|exact H4|exact Hc|exact Hd].
      * apply (I10 c d j); [lia|exact H2|lia|exact H4|exact Hc|exact Hd].
Qed.

Lemma assigned_none : assigned 0 (repeat None (m + n)) (fun c => filter (is_first c) (seq 0 m)).
Proof.
  assert (None_all : forall i, i < m + n -> nth_error (repeat (@None nat) (m + n)) i = Some None).
  { intros i Hi. rewrite nth_error_repeat, (proj2 (Nat.ltb_lt _ _)) by exact Hi. reflexivity. }
  constructor.
  + apply repeat_length.
  + intros c i _ Hc. rewrite filter_In, in_seq, is_first_spec. split.
    * intros [H1 H2]. split; [lia|]. split; [apply None_all; lia|]. exists c. split; [exact H2|]. split; [constructor|].
      intros c' C1 C2 C3. exfalso. apply C3. apply r_eq; assumption.
    * intros (H1 & _ & f & F1 & F2 & F3). split; [lia|]. destruct (Nat.eq_dec f c) as [->|N]; [exact F1|].
      pose proof (F3 f (below_refl _ _) F2 N). lia.
  + intros i c Hi. rewrite None_all by lia. discriminate.
  + intros i j c Hi _. rewrite None_all by lia. discriminate.
  + intros c Hc. lia.
Qed.

(** cholesky.rs 377-443 *)
Lemma permute_rows_rest perm q0 q Q : ofold (enqueue_row fcs) (rev (seq 0 m))
    (RowQueues (repeat (Some 0) m) (repeat None n) (repeat None n) (repeat 0%Z n)) = Done q0 ->
  ofold (assign_row ps) (seq 0 n) (m, repeat None (m + n), q0) = Done (m, perm, q) -> assigned n perm Q ->
  exists perm rho, permute_rows m n ps fcs = Done perm /\ length perm = m + n /\ n <= m /\
  (forall i, i < m -> nth_error perm i = Some (Some (rho i)) /\ rho i < m) /\
  (forall i j, i < m -> j < m -> rho i = rho j -> i = j) /\
  (forall i, i < m -> rho i < n -> exists f, first i f /\ below f (rho i)) /\
  (forall c, c < n -> exists i, i < m /\ rho i = c).
Proof.
  intros E0 E1 [A1 A2 A3 A4 A5]. unfold permute_rows. rewrite E0. cbn [obind].
  rewrite E1. cbn [obind].
  set (unset := fun i => match nth_error perm i with Some None => true | _ => false end).
  set (rank := fun i => length (filter unset (seq 0 i))).
  assert (RankS : forall i, rank (S i) = rank i + if unset i then 1 else 0).
  { intros i. unfold rank. rewrite seq_S, filter_app, app_length. cbn [filter Nat.add]. destruct (unset i); cbn; lia. }
  assert (RankM : forall i j, i <= j -> rank i <= rank j).
  { intros i j H. induction H as [|j H IH]; [lia|]. rewrite RankS. lia. }
  assert (RankLt : forall i j, i < j -> unset i = true -> rank i < rank j).
  { intros i j H Hu. pose proof (RankM (S i) j H). rewrite RankS, Hu in H0. lia. }
  set (val := fun i => match nth i perm None with Some c => c | None => 0 end).
  assert (Val : forall i, i < m -> unset i = false -> nth_error perm i = Some (Some (val i))).
  { intros i Hi Hu. unfold unset in Hu. destruct (nth_error_ex perm i) as [o Ho]; [lia|]. rewrite Ho in *.
    destruct o as [c|]; [|discriminate]. unfold val. rewrite (nth_error_nth _ _ None Ho). reflexivity. }
  (* as many rows were given to columns as there are columns *)
  assert (Rank : rank m + n = m).
  { assert (Len : length (filter (fun i => negb (unset i)) (seq 0 m)) = n).
    { rewrite <- (map_length val). rewrite <- (seq_length n 0). apply Permutation_length. apply NoDup_Permutation.
      - assert (G : forall l, NoDup l -> (forall i, In i l -> i < m /\ unset i = false) -> NoDup (map val l)).
        { induction 1 as [|i l Hi _ IH]; intros Hl; cbn [map]; constructor.
          - intros Hv. apply in_map_iff in Hv. destruct Hv as (j & Ej & Hj). apply Hi.
            destruct (Hl i (or_introl eq_refl)) as [I1 I2]. destruct (Hl j (or_intror Hj)) as [J1 J2].
            pose proof (Val i I1 I2) as V1. pose proof (Val j J1 J2) as V2. rewrite Ej in V2.
            rewrite (A4 i j (val i) I1 J1 V1 V2). exact Hj.
          - apply IH. intros j Hj. apply Hl. right; exact Hj. }
        apply G; [apply NoDup_filter, seq_NoDup|]. intros i Hi. apply filter_In in Hi. destruct Hi as [H1 H2].
        apply in_seq in H1. apply negb_true_iff in H2. split; [lia|exact H2].
      - apply seq_NoDup.
      - intros c. rewrite in_map_iff, in_seq. split.
        + intros (i & <- & Hi). apply filter_In in Hi. destruct Hi as [H1 H2]. apply in_seq in H1. apply negb_true_iff in H2.
          assert (Hi : i < m) by lia. destruct (A3 i (val i) Hi (Val i Hi H2)). lia.
        + intros Hc. destruct (A5 c) as (i & Hi & Pi); [lia|]. exists i. split.
          * unfold val. rewrite (nth_error_nth _ _ None Pi). reflexivity.
          * apply filter_In. split; [apply in_seq; lia|]. unfold unset. rewrite Pi. reflexivity. }
    assert (Split : forall l, length (filter unset l) + length (filter (fun i => negb (unset i)) l) = length l).
    { induction l as [|x l IH]; [reflexivity|]. cbn [filter length]. destruct (unset x); cbn [negb length]; lia. }
    pose proof (Split (seq 0 m)) as Sp. rewrite seq_length, Len in Sp. exact Sp. }
  set (rho := fun i => if unset i then n + rank i else val i).
  destruct (ofold_ok_prefix (fun pre (st : nat * list (option nat)) => fst st = n + rank (length pre) /\ length (snd st) = m + n /\
      (forall i, i < length pre -> i < m -> nth_error (snd st) i = Some (Some (rho i))) /\
      (forall i, length pre <= i -> nth_error (snd st) i = nth_error perm i))
    assign_rest (seq 0 m)) with (s := (n, perm)) as ([k perm'] & E & _ & L & H1 & _).
  - intros pre i suf [k perm'] El (Ek & L & H1 & H2). cbn [fst snd] in *.
    assert (Ei : nth_error (seq 0 m) (length pre) = Some i) by (rewrite El, nth_error_app2, Nat.sub_diag by lia; reflexivity).
    rewrite nth_error_seq in Ei. destruct (Nat.ltb_spec (length pre) m) as [Hi|]; [|discriminate]. injection Ei as <-. cbn [Nat.add].
    unfold assign_rest. rewrite app_length. cbn [length]. rewrite Nat.add_1_r, RankS.
    destruct (nth_error_ex perm (length pre)) as [o Ho]; [lia|].
    assert (Ho' : nth_error perm' (length pre) = Some o) by (rewrite H2 by lia; exact Ho).
    rewrite (proj2 (oget_done _ _ _) Ho'). cbn [obind].
    assert (Hu : unset (length pre) = match o with Some _ => false | None => true end).
    { unfold unset. rewrite Ho. destruct o; reflexivity. }
    destruct o as [c|].
    + eexists; split; [reflexivity|]. cbn [fst snd]. rewrite Hu. split; [lia|]. split; [exact L|]. split.
      * intros j Hj Hjm. destruct (Nat.eq_dec j (length pre)) as [->|]; [|apply H1; lia]. rewrite Ho'. unfold rho. rewrite Hu.
        unfold val. rewrite (nth_error_nth _ _ None Ho). reflexivity.
      * intros j Hj. apply H2. lia.
    + rewrite oset_ok by lia. cbn [obind]. eexists; split; [reflexivity|]. cbn [fst snd]. rewrite Hu. split; [lia|].
      rewrite lset_length. split; [exact L|]. split.
      * intros j Hj Hjm. rewrite nth_error_lset. destruct (Nat.ltb_spec (length pre) (length perm')); [|lia].
        destruct (Nat.eqb_spec (length pre) j) as [<-|]; [|apply H1; lia]. unfold rho. rewrite Hu, Ek. reflexivity.
      * intros j Hj. rewrite nth_error_lset_ne by lia. apply H2. lia.
  - cbn [fst snd length]. split; [unfold rank; cbn; lia|]. split; [exact A1|]. split; [intros; lia|reflexivity].
  - rewrite E. cbn [obind]. cbn [snd] in *. rewrite seq_length in H1. exists perm', rho. split; [reflexivity|]. split; [exact L|].
    split; [lia|]. split.
    { intros i Hi. split; [apply H1; assumption|]. unfold rho. destruct (unset i) eqn:Hu.
      - pose proof (RankLt i m Hi Hu). lia.
      - destruct (A3 i (val i) Hi (Val i Hi Hu)). lia. }
    split.
    { intros i j Hi Hj Er. unfold rho in Er. destruct (unset i) eqn:Hu, (unset j) eqn:Hv.
      - destruct (Nat.lt_total i j) as [X|[X|X]]; [|exact X|].
        + pose proof (RankLt i j X Hu). lia.
        + pose proof (RankLt j i X Hv). lia.
      - destruct (A3 j (val j) Hj (Val j Hj Hv)). lia.
      - destruct (A3 i (val i) Hi (Val i Hi Hu)). lia.
      - apply (A4 i j (val i) Hi Hj (Val i Hi Hu)). rewrite Er. apply Val; assumption. }
    split.
    { intros i Hi. unfold rho. destruct (unset i) eqn:Hu; [lia|]. intros _. apply (A3 i (val i) Hi (Val i Hi Hu)). }
    intros c Hc. destruct (A5 c Hc) as (i & Hi & Pi). exists i. split; [exact Hi|]. unfold rho.
    assert (Hu : unset i = false) by (unfold unset; rewrite Pi; reflexivity). rewrite Hu. unfold val.
    rewrite (nth_error_nth _ _ None Pi). reflexivity.
Qed.

(** A column without a row is given one that does not exist. *)
Lemma assign_fictitious fict perm q k fict' perm' q' : assign_row ps (fict, perm, q) k = Done (fict', perm', q') ->
  fict' = S fict \/ (fict' = fict /\ nth_error (q_head q) k <> Some None).
Proof.
  unfold assign_row. intros E. apply obind_done in E. destruct E as (h & Eh & E). apply oget_done in Eh.
  destruct h as [i|].
  - right. split; [|congruence].
    repeat first [apply obind_done in E; destruct E as (? & _ & E) | match type of E with (if ?b then _ else _) = _ => destruct b end
      | match type of E with match ?o with _ => _ end = _ => destruct o end]; congruence.
  - left.
    repeat first [apply obind_done in E; destruct E as (? & _ & E) | match type of E with (if ?b then _ else _) = _ => destruct b end
      | match type of E with match ?o with _ => _ end = _ => destruct o end]; congruence.
Qed.

(** The run in which every column found a row *)
Lemma assign_done q0 perm q : ofold (enqueue_row fcs) (rev (seq 0 m))
    (RowQueues (repeat (Some 0) m) (repeat None n) (repeat None n) (repeat 0%Z n)) = Done q0 ->
  ofold (assign_row ps) (seq 0 n) (m, repeat None (m + n), q0) = Done (m, perm, q) -> exists Q, assigned n perm Q.
Proof.
  intros E0 E1. destruct enqueue_ok as (q0' & E0' & QI). assert (q0' = q0) by congruence. subst q0'.
  assert (J : (fun pre (st : nat * list (option nat) * row_queues) => let '(fict, perm, q) := st in
     m <= fict /\ (fict = m -> exists Q, queues (length pre) q Q /\ assigned (length pre) perm Q)) (seq 0 n) (m, perm, q)).
  { refine (ofold_inv_prefix (fun pre (st : nat * list (option nat) * row_queues) => let '(fict, perm, q) := st in
     m <= fict /\ (fict = m -> exists Q, queues (length pre) q Q /\ assigned (length pre) perm Q)) (assign_row ps) (seq 0 n) _ _ _ _ E1).
    - intros pre k suf [[fict pm] qq] st' El (Hf & HQ) Es.
      assert (Ek : nth_error (seq 0 n) (length pre) = Some k) by (rewrite El, nth_error_app2, Nat.sub_diag by lia; reflexivity).
      rewrite nth_error_seq in Ek. destruct (Nat.ltb_spec (length pre) n) as [Hk|]; [|discriminate]. injection Ek as <-.
      cbn [Nat.add] in Es. destruct st' as [[fict' pm'] qq'].
      destruct (assign_fictitious _ _ _ _ _ _ _ Es) as [Hs|[Hs Hh]]; [split; [lia|intros; lia]|].
      subst fict'. split; [exact Hf|]. intros ->. destruct (HQ eq_refl) as (Q & QI' & A).
      assert (Ne : Q (length pre) <> []).
      { intros EQ. destruct (qs_chain _ _ _ QI' (length pre) (le_n _) Hk) as (h & Eh & Ch). rewrite EQ in Ch.
        cbn in Ch. apply Hh. congruence. }
      destruct (assign_ok (length pre) m pm qq Q Hk Ne QI' A) as (perm2 & q2 & Q2 & E2 & QI2 & A2).
      rewrite E2 in Es. injection Es as <- <-. rewrite app_length. cbn [length]. rewrite Nat.add_1_r. eauto.
    - split; [lia|]. intros _. exists (fun c => filter (is_first c) (seq 0 m)). split; [exact QI|]. apply assigned_none. }
  cbn beta iota in J. destruct J as [_ J]. destruct (J eq_refl) as (Q & _ & A). rewrite seq_length in A. eauto.
Qed.

(** Every column can be given a row of its own with an entry in it. *)
Context (g : nat -> nat) (Hg : forall d, d < n -> g d < m /\ exists f, first (g d) f /\ below f d)
  (g_inj : forall d e, d < n -> e < n -> g d = g e -> d = e).

Lemma queue_nonempty k perm Q : k < n -> assigned k perm Q -> Q k <> [].
Proof.
  intros Hk [A1 A2 A3 A4 A5] E.
  assert (Full : forall d, below d k -> exists c, nth_error perm (g d) = Some (Some c) /\ below c k /\ c <> k).
  { intros d Bd. pose proof (r_le _ _ Bd). destruct (Hg d) as (Gm & f & Gf & Bf); [lia|].
    destruct (nth_error_ex perm (g d)) as [o Ho]; [lia|]. pose proof (below_trans _ _ _ _ Bf Bd) as Bfk. destruct o as [c|].
    - exists c. split; [exact Ho|]. destruct (A3 _ _ Gm Ho) as (Hc & f' & Gf' & Bf'). assert (f' = f) by congruence. subst f'.
      split; [|lia]. eapply r_order; [exact Bf'|exact Bfk|lia].
    - exfalso. assert (Hi : In (g d) (Q k)).
      { apply A2; [lia|exact Hk|]. split; [exact Gm|]. split; [exact Ho|]. exists f. split; [exact Gf|]. split; [exact Bfk|].
        intros c' _ H2 H3. apply r_le in H2. lia. }
      rewrite E in Hi. contradiction. }
  assert (Enum : exists T, NoDup T /\ forall d, In d T <-> below d k).
  { assert (G : forall N, exists T, NoDup T /\ forall d, In d T <-> d < N /\ below d k).
    { induction N as [|N (T & NT & HT)]; [exists []; split; [constructor|]; intros d; split; [intros []|lia]|].
      destruct (r_dec N k) as [B|B].
      - exists (N :: T). split; [constructor; [rewrite HT; lia|exact NT]|]. intros d. cbn [In]. rewrite HT. split.
        + intros [<-|[H1 H2]]; [auto|]. split; [lia|exact H2].
        + intros [H1 H2]. destruct (Nat.eq_dec N d) as [|Nd]; [auto|]. right. split; [lia|exact H2].
      - exists T. split; [exact NT|]. intros d. rewrite HT. split; intros [H1 H2]; (split; [|exact H2]).
        + lia.
        + destruct (Nat.eq_dec N d) as [<-|Nd]; [contradiction|lia]. }
    destruct (G (S k)) as (T & NT & HT). exists T. split; [exact NT|]. intros d. rewrite HT. split; [tauto|].
    intros H. split; [|exact H]. apply r_le in H. lia. }
  destruct Enum as (T & NT & HT).
  set (h := fun d => match nth (g d) perm None with Some c => c | None => 0 end).
  assert (Hh : forall d, below d k -> nth_error perm (g d) = Some (Some (h d)) /\ below (h d) k /\ h d <> k).
  { intros d Bd. destruct (Full d Bd) as (c & Hc & Bc & Nc). unfold h. rewrite (nth_error_nth _ _ None Hc). auto. }
  assert (Nh : NoDup (map h T)).
  { assert (G : forall l, NoDup l -> (forall d, In d l -> below d k) -> NoDup (map h l)).
    { induction 1 as [|d l Hd _ IH]; intros Hl; cbn [map]; constructor.
      - intros Hi. apply in_map_iff in Hi. destruct Hi as (e & Ee & He). apply Hd.
        assert (Be : below e k) by (apply Hl; right; exact He). assert (Bd : below d k) by (apply Hl; left; reflexivity).
        destruct (Hh e Be) as (P1 & _). destruct (Hh d Bd) as (P2 & _). rewrite Ee in P1.
        pose proof (r_le _ _ Be). pose proof (r_le _ _ Bd).
        assert (Eg : g e = g d) by (apply (A4 _ _ (h d)); [apply Hg; lia|apply Hg; lia|exact P1|exact P2]).
        apply g_inj in Eg; [|lia|lia]. subst e. exact He.
      - apply IH. intros e He. apply Hl. right; exact He. }
    apply G; [exact NT|]. intros d. apply HT. }
  assert (Len : length (k :: map h T) <= length T).
  { apply NoDup_incl_length.
    - constructor; [|exact Nh]. intros Hi. apply in_map_iff in Hi. destruct Hi as (d & Ed & Hd). apply HT in Hd.
      destruct (Hh d Hd) as (_ & _ & Nd). congruence.
    - intros x [<-|Hi]; [apply HT; constructor|]. apply in_map_iff in Hi. destruct Hi as (d & <- & Hd). apply HT in Hd.
      apply HT. apply (Hh d Hd). }
  cbn [length] in Len. rewrite map_length in Len. lia.
Qed.

Lemma assign_all : exists perm, (exists q0 q Q, ofold (enqueue_row fcs) (rev (seq 0 m))
    (RowQueues (repeat (Some 0) m) (repeat None n) (repeat None n) (repeat 0%Z n)) = Done q0 /\
  ofold (assign_row ps) (seq 0 n) (m, repeat None (m + n), q0) = Done (m, perm, q) /\ assigned n perm Q).
Proof.
  destruct enqueue_ok as (q0 & E0 & QI).
  destruct (ofold_ok_prefix (fun pre (st : nat * list (option nat) * row_queues) => let '(fict, perm, q) := st in
     fict = m /\ exists Q, queues (length pre) q Q /\ assigned (length pre) perm Q)
    (assign_row ps) (seq 0 n)) with (s := (m, repeat (@None nat) (m + n), q0)) as ([[fict perm] q] & E & -> & Q & _ & A).
  - intros pre k suf [[fict perm] q] El (-> & Q & QI' & A).
    assert (Ek : nth_error (seq 0 n) (length pre) = Some k) by (rewrite El, nth_error_app2, Nat.sub_diag by lia; reflexivity).
    rewrite nth_error_seq in Ek. destruct (Nat.ltb_spec (length pre) n) as [Hk|]; [|discriminate]. injection Ek as <-. cbn [Nat.add].
    destruct (assign_ok (length pre) m perm q Q Hk (queue_nonempty _ _ _ Hk A) QI' A) as (perm' & q' & Q' & E' & QI2 & A2).
    exists (m, perm', q'). split; [exact E'|]. split; [reflexivity|]. rewrite app_length. cbn [length]. rewrite Nat.add_1_r. eauto.
  - split; [reflexivity|]. exists (fun c => filter (is_first c) (seq 0 m)). split; [exact QI|]. cbn [length].
    apply assigned_none.
  - exists perm, q0, q, Q. rewrite seq_length in A. auto.
Qed.


(** cholesky.rs 377-443 *)
Lemma permute_rows_ok : exists perm rho, permute_rows m n ps fcs = Done perm /\ length perm = m + n /\ n <= m /\
  (forall i, i < m -> nth_error perm i = Some (Some (rho i)) /\ rho i < m) /\
  (forall i j, i < m -> j < m -> rho i = rho j -> i = j) /\
  (forall i, i < m -> rho i < n -> exists f, first i f /\ below f (rho i)) /\
  (forall c, c < n -> exists i, i < m /\ rho i = c).
Proof. destruct assign_all as (perm & q0 & q & Q & E0 & E1 & A). eapply permute_rows_rest; eassumption. Qed.
End Rows.

(* ----- columns without a row ----- *)

(** Every column was given a row that exists. *)
Definition rows_found (m n : nat) (ps fcs : list (option nat)) : Prop := exists q0 perm q,
  ofold (enqueue_row fcs) (rev (seq 0 m))
    (RowQueues (repeat (Some 0) m) (repeat None n) (repeat None n) (repeat 0%Z n)) = Done q0 /\
  ofold (assign_row ps) (seq 0 n) (m, repeat None (m + n), q0) = Done (m, perm, q).

Definition unset (perm : list (option nat)) (i : nat) : bool := match nth_error perm i with Some None => true | _ => false end.
Definition unsets (m : nat) (perm : list (option nat)) : nat := length (filter (unset perm) (seq 0 m)).

Lemma unsets_S m perm : unsets (S m) perm = unsets m perm + if unset perm m then 1 else 0.
Proof. unfold unsets. rewrite seq_S, filter_app, app_length. cbn [filter Nat.add]. destruct (unset perm m); cbn; lia. Qed.

Lemma unset_lset perm i k j : unset (lset perm i (Some k)) j = if i =? j then false else unset perm j.
Proof.
  unfold unset. rewrite nth_error_lset. destruct (Nat.eqb_spec i j) as [->|]; [|reflexivity].
  destruct (Nat.ltb_spec j (length perm)) as [H|H]; [reflexivity|]. reflexivity.
Qed.

Lemma unsets_lset perm i k m : unsets m (lset perm i (Some k)) + (if i <? m then 1 else 0) >= unsets m perm.
Proof.
  induction m as [|m IH]; [cbn; lia|]. rewrite !unsets_S, unset_lset.
  destruct (Nat.eqb_spec i m) as [->|N].
  - destruct (Nat.ltb_spec m m); [lia|]. destruct (Nat.ltb_spec m (S m)); [|lia]. destruct (unset perm m); lia.
  - destruct (Nat.ltb_spec i m), (Nat.ltb_spec i (S m)); try lia; destruct (unset perm m); lia.
Qed.

Lemma assign_counts m ps k fict perm q fict' perm' q' : m <= fict -> assign_row ps (fict, perm, q) k = Done (fict', perm', q') ->
  fict <= fict' /\ fict' + unsets m perm <= fict + unsets m perm' + 1.
Proof.
  intros Hm E. unfold assign_row in E. apply obind_done in E. destruct E as (h & Eh & E).
  assert (G : exists i, fict <= fict' /\ oset perm i (Some k) = Done perm' /\ (fict' = S fict /\ m <= i \/ fict' = fict)).
  { destruct h as [i|]; cbv beta iota zeta in E.
    - exists i. apply obind_done in E. destruct E as (p1 & E1 & E).
      repeat first [apply obind_done in E; destruct E as (? & _ & E) | match type of E with (if ?b then _ else _) = _ => destruct b end
        | match type of E with match ?o with _ => _ end = _ => destruct o end]; injection E as <- <- _; auto.
    - exists fict. apply obind_done in E. destruct E as (p1 & E1 & E).
      repeat first [apply obind_done in E; destruct E as (? & _ & E) | match type of E with (if ?b then _ else _) = _ => destruct b end
        | match type of E with match ?o with _ => _ end = _ => destruct o end]; injection E as <- <- _; auto. }
  destruct G as (i & Hf & Es & G). split; [exact Hf|]. apply oset_done in Es. destruct Es as [_ ->].
  pose proof (unsets_lset perm i k m) as U. destruct (Nat.ltb_spec i m); destruct G as [[-> ]| ->]; lia.
Qed.

Lemma rows_found_in_range m n ps fcs perm : permute_rows m n ps fcs = Done perm -> n <= m ->
  (forall i p, i < m -> nth_error perm i = Some (Some p) -> p < m) -> rows_found m n ps fcs.
Proof.
  intros E Hn Hin. unfold permute_rows in E. apply obind_done in E. destruct E as (q0 & E0 & E).
  apply obind_done in E. destruct E as ([[fict pm] q] & E1 & E).
  apply obind_done in E. destruct E as ([k perm2] & E2 & E). injection E as <-.
  assert (C : (fun pre (st : nat * list (option nat) * row_queues) => let '(f, p, _) := st in
     m <= f /\ f <= unsets m p + length pre /\ length p = m + n) (seq 0 n) (fict, pm, q)).
  { refine (ofold_inv_prefix (fun pre (st : nat * list (option nat) * row_queues) => let '(f, p, _) := st in
      m <= f /\ f <= unsets m p + length pre /\ length p = m + n) (assign_row ps) (seq 0 n) _ _ _ _ E1).
    - intros pre j suf [[f p] qq] [[f' p'] qq'] _ (H1 & H2 & H3) Es.
      destruct (assign_counts m ps j f p qq f' p' qq' H1 Es) as [C1 C2]. rewrite app_length. cbn [length].
      split; [lia|]. split; [lia|].
      unfold assign_row in Es. apply obind_done in Es. destruct Es as (h & _ & Es).
      destruct h as [i|]; cbv beta iota zeta in Es; apply obind_done in Es; destruct Es as (p1 & Es1 & Es);
        apply oset_done in Es1; destruct Es1 as [_ ->];
        repeat first [apply obind_done in Es; destruct Es as (? & _ & Es) | match type of Es with (if ?b then _ else _) = _ => destruct b end
          | match type of Es with match ?o with _ => _ end = _ => destruct o end]; injection Es as _ <- _; rewrite lset_length; exact H3.
    - cbn [length]. split; [lia|]. split; [|apply repeat_length].
      assert (G : forall x, x <= m -> unsets x (repeat None (m + n)) = x).
      { induction x as [|x IH]; intros Hx; [reflexivity|]. rewrite unsets_S, IH by lia. unfold unset.
        rewrite nth_error_repeat, (proj2 (Nat.ltb_lt _ _)) by lia. lia. }
      rewrite G by lia. lia. }
  cbn beta iota in C. destruct C as (C1 & C2 & C3). rewrite seq_length in C2.
  destruct (Nat.eq_dec fict m) as [->|Nf]; [exists q0, pm, q; auto|]. exfalso.
  assert (D : (fun pre (st : nat * list (option nat)) => let '(k, p) := st in
     k = n + unsets (length pre) pm /\ (n < k -> exists i, i < length pre /\ nth_error p i = Some (Some (k - 1))) /\
     forall i, length pre <= i -> nth_error p i = nth_error pm i) (seq 0 m) (k, perm2)).
  { refine (ofold_inv_prefix (fun pre (st : nat * list (option nat)) => let '(k, p) := st in
     k = n + unsets (length pre) pm /\ (n < k -> exists i, i < length pre /\ nth_error p i = Some (Some (k - 1))) /\
     forall i, length pre <= i -> nth_error p i = nth_error pm i) assign_rest (seq 0 m) _ _ _ _ E2).
    - intros pre i suf [x p] [x' p'] El (H1 & H2 & H3) Es.
      assert (Ei : nth_error (seq 0 m) (length pre) = Some i) by (rewrite El, nth_error_app2, Nat.sub_diag by lia; reflexivity).
      rewrite nth_error_seq in Ei. destruct (Nat.ltb_spec (length pre) m) as [Hi|]; [|discriminate]. injection Ei as <-.
      cbn [Nat.add] in Es. rewrite app_length. cbn [length]. rewrite Nat.add_1_r, unsets_S.
      unfold assign_rest in Es. apply obind_done in Es. destruct Es as (o & Eo & Es). apply oget_done in Eo.
      pose proof Eo as Eo'. rewrite H3 in Eo' by lia. unfold unset. rewrite Eo'. destruct o as [c|].
      + injection Es as <- <-. split; [lia|]. split; [|intros j Hj; apply H3; lia].
        intros Hx. destruct (H2 Hx) as (j & Hj & Ej). exists j. split; [lia|exact Ej].
      + apply obind_done in Es. destruct Es as (p1 & Es1 & Es). injection Es as <- <-.
        apply oset_done in Es1. destruct Es1 as [Lp ->]. split; [lia|]. split.
        * intros _. exists (length pre). split; [lia|]. rewrite nth_error_lset, Nat.eqb_refl, (proj2 (Nat.ltb_lt _ _)) by exact Lp.
          f_equal. f_equal. lia.
        * intros j Hj. rewrite nth_error_lset_ne by lia. apply H3. lia.
    - cbn [length]. split; [cbn; lia|]. split; [lia|reflexivity]. }
  cbn beta iota in D. destruct D as (D1 & D2 & _). rewrite seq_length in D1, D2.
  destruct D2 as (i & Hi & Ei); [lia|]. specialize (Hin _ _ Hi Ei). lia.
Qed.
