From Verif Require Import Base MergeModel MergeSpec.
Local Ltac Zify.zify_post_hook ::= idtac.
Local Open Scope Z_scope.

Lemma alike_spec c n : alike c n = true <->
  c_type c = c_type n /\ b_onum (c_buf1 c) = b_onum (c_buf1 n) /\ b_onum (c_buf2 c) = b_onum (c_buf2 n) /\
  b_num (c_buf1 c) = b_num (c_buf1 n) /\ b_num (c_buf2 c) = b_num (c_buf2 n).
Proof.
  unfold alike. rewrite !andb_true_iff, !Z.eqb_eq. destruct (ctype_eq (c_type c) (c_type n)); split; intros H; decompose [and] H; repeat split; auto; discriminate.
Qed.
Lemma alike_trans c c' n : c_type c = c_type c' -> c_buf1 c = c_buf1 c' -> c_buf2 c = c_buf2 c' ->
  alike c n = true -> alike c' n = true.
Proof. intros E1 E2 E3. rewrite !alike_spec, E1, E2, E3. auto. Qed.

Lemma regular_tail a r : regular (a ++ r) -> regular r.
Proof. induction a as [|[c|x] a IH]; cbn [app regular]; [auto|intros [_ H]; auto|auto]. Qed.

Section Memory.
  Context {V : Type} (op : V -> V -> V) (other : Z -> (buf -> Z -> V) -> buf -> Z -> V).
  Context (other_same : forall x m m', same (V:=V) m m' -> same (other x m) (other x m')).
  Local Notation mem := (@mem V).
  Local Notation same := (@same V).
  Local Notation do_copy := (do_copy op).
  Local Notation do_line := (do_line op other).
  Local Notation run := (run op other).

  Lemma same_refl m : same m m. Proof using. intros b a; reflexivity. Qed.
  Lemma same_trans m1 m2 m3 : same m1 m2 -> same m2 m3 -> same m1 m3.
  Proof using. intros H1 H2 b a. rewrite H1. apply H2. Qed.
  Lemma same_sym m1 m2 : same m1 m2 -> same m2 m1.
  Proof using. intros H1 b a. symmetry. apply H1. Qed.
  Lemma do_copy_same c m m' : same m m' -> same (do_copy c m) (do_copy c m').
  Proof using. intros H b a. unfold MergeSpec.do_copy. rewrite !H. reflexivity. Qed.
  Lemma do_line_same l m m' : same m m' -> same (do_line l m) (do_line l m').
  Proof using other_same. intros H. destruct l; [apply do_copy_same; assumption|apply other_same; assumption]. Qed.
  Lemma run_same ls : forall m m', same m m' -> same (run ls m) (run ls m').
  Proof using other_same. induction ls as [|l r IH]; intros m m' H; [exact H|]. apply IH, do_line_same, H. Qed.
  Lemma run_app a : forall b m, run (a ++ b) m = run b (run a m).
  Proof using. clear other_same. induction a as [|l a IH]; intros b m; [reflexivity|]. cbn [app MergeSpec.run]. apply IH. Qed.

  Local Ltac crush := repeat match goal with
    | |- context [if buf_eq ?x ?y then _ else _] => destruct (buf_eq x y)
    | |- context [?x <=? ?y] => destruct (Z.leb_spec x y)
    | |- context [?x <? ?y] => destruct (Z.ltb_spec x y)
    end; cbn [andb]; try lia; try reflexivity.

  (* two neighbouring copies, the second behind the first *)
  Lemma fuse_up c n : c_type c = c_type n -> c_buf1 c = c_buf1 n -> c_buf2 c = c_buf2 n ->
    c_off1 c + c_size c = c_off1 n -> c_off2 c + c_size c = c_off2 n -> 0 <= c_size c -> 0 <= c_size n ->
    valid (Cpy (resize c (c_off1 c) (c_off2 c) (c_size c + c_size n))) -> forall m,
    same (do_copy n (do_copy c m)) (do_copy (resize c (c_off1 c) (c_off2 c) (c_size c + c_size n)) m).
  Proof using.
    clear other other_same.
    intros Et E1 E2 O1 O2 S1 S2 [_ Hv] m b a. cbn [resize c_buf1 c_buf2 c_off1 c_off2 c_size] in Hv.
    unfold MergeSpec.do_copy. cbn [resize c_type c_buf1 c_buf2 c_off1 c_off2 c_size]. rewrite <- Et, <- E1, <- E2, <- O1, <- O2.
    destruct (buf_eq b (c_buf1 c)) as [->|]; [|reflexivity].
    replace (a - (c_off1 c + c_size c) + (c_off2 c + c_size c)) with (a - c_off1 c + c_off2 c) by lia.
    destruct (Z.leb_spec (c_off1 c + c_size c) a) as [A|A]; cbn [andb].
    - destruct (Z.ltb_spec a (c_off1 c + c_size c)); [lia|]. rewrite andb_false_r.
      destruct (Z.leb_spec (c_off1 c) a); [|lia]. cbn [andb].
      destruct (Z.ltb_spec a (c_off1 c + c_size c + c_size n)) as [B|B];
        destruct (Z.ltb_spec a (c_off1 c + (c_size c + c_size n))) as [B'|B']; try lia; try reflexivity.
      replace (if buf_eq (c_buf2 c) (c_buf1 c) then _ else _) with (m (c_buf2 c) (a - c_off1 c + c_off2 c)); [reflexivity|].
      destruct (buf_eq (c_buf2 c) (c_buf1 c)) as [E|]; [|reflexivity].
      assert (X : (c_off1 c <=? a - c_off1 c + c_off2 c) && (a - c_off1 c + c_off2 c <? c_off1 c + c_size c) = false).
      { apply andb_false_iff. rewrite Z.leb_gt, Z.ltb_ge. destruct Hv as [Hv|[Hv|Hv]]; [congruence| |]; lia. }
      rewrite X. reflexivity.
    - destruct (Z.leb_spec (c_off1 c) a); cbn [andb]; [|reflexivity].
      destruct (Z.ltb_spec a (c_off1 c + c_size c)); [|lia].
      destruct (Z.ltb_spec a (c_off1 c + (c_size c + c_size n))); [|lia]. reflexivity.
  Qed.
  (* the second before the first *)
  Lemma fuse_down c n : c_type c = c_type n -> c_buf1 c = c_buf1 n -> c_buf2 c = c_buf2 n ->
    c_off1 n + c_size n = c_off1 c -> c_off2 n + c_size n = c_off2 c -> 0 <= c_size c -> 0 <= c_size n ->
    valid (Cpy (resize c (c_off1 n) (c_off2 n) (c_size c + c_size n))) -> forall m,
    same (do_copy n (do_copy c m)) (do_copy (resize c (c_off1 n) (c_off2 n) (c_size c + c_size n)) m).
  Proof using.
    clear other other_same.
    intros Et E1 E2 O1 O2 S1 S2 [_ Hv] m b a. cbn [resize c_buf1 c_buf2 c_off1 c_off2 c_size] in Hv.
    unfold MergeSpec.do_copy. cbn [resize c_type c_buf1 c_buf2 c_off1 c_off2 c_size]. rewrite <- Et, <- E1, <- E2, <- O1, <- O2.
    destruct (buf_eq b (c_buf1 c)) as [->|]; [|reflexivity].
    replace (a - (c_off1 n + c_size n) + (c_off2 n + c_size n)) with (a - c_off1 n + c_off2 n) by lia.
    destruct (Z.leb_spec (c_off1 n + c_size n) a) as [A|A]; cbn [andb].
    - destruct (Z.ltb_spec a (c_off1 n + c_size n)); [lia|]. rewrite andb_false_r.
      destruct (Z.leb_spec (c_off1 n) a); [|lia]. cbn [andb].
      destruct (Z.ltb_spec a (c_off1 n + c_size n + c_size c)) as [B|B];
        destruct (Z.ltb_spec a (c_off1 n + (c_size c + c_size n))) as [B'|B']; try lia; reflexivity.
    - destruct (Z.leb_spec (c_off1 n) a); cbn [andb]; [|reflexivity].
      destruct (Z.ltb_spec a (c_off1 n + c_size n)); [|lia].
      destruct (Z.ltb_spec a (c_off1 n + (c_size c + c_size n))); [|lia].
      replace (if buf_eq (c_buf2 c) (c_buf1 c) then _ else _) with (m (c_buf2 c) (a - c_off1 n + c_off2 n)); [reflexivity|].
      destruct (buf_eq (c_buf2 c) (c_buf1 c)) as [E|]; [|reflexivity].
      assert (X : (c_off1 n + c_size n <=? a - c_off1 n + c_off2 n) && (a - c_off1 n + c_off2 n <? c_off1 n + c_size n + c_size c) = false).
      { apply andb_false_iff. rewrite Z.leb_gt, Z.ltb_ge. destruct Hv as [Hv|[Hv|Hv]]; [congruence| |]; lia. }
      rewrite X. reflexivity.
  Qed.

  (* what is needed of the line in front of ls *)
  Definition front (c : copy) (ls : list ln) : Prop :=
    match ls with Cpy n :: _ => alike c n = true -> c_buf1 c = c_buf1 n /\ c_buf2 c = c_buf2 n | _ => True end.
  Lemma front_regular c ls : regular (Cpy c :: ls) -> front c ls.
  Proof using. clear other_same. intros [H _]. destruct ls as [|[n|] r]; cbn; auto. intros A. apply (H A). Qed.
  Lemma front_change c c' ls : c_type c = c_type c' -> c_buf1 c = c_buf1 c' -> c_buf2 c = c_buf2 c' -> front c ls -> front c' ls.
  Proof using.
    clear other_same. intros E1 E2 E3 H. destruct ls as [|[n|] r]; cbn in *; auto. intros A.
    rewrite <- E2, <- E3. apply H. apply (alike_trans c'); auto.
  Qed.

  Lemma forward_ok ls : forall c c' rest, forward c ls = (c', rest) -> front c ls -> regular ls -> sized ls -> 0 <= c_size c ->
    c_off1 c' = c_off1 c /\ c_off2 c' = c_off2 c /\ c_buf1 c' = c_buf1 c /\ c_buf2 c' = c_buf2 c /\ c_size c <= c_size c' /\
    exists taken, ls = taken ++ rest /\
    (valid (Cpy c') -> forall m, same (run taken (do_copy c m)) (do_copy c' m)).
  Proof using other_same.
    induction ls as [|[n|x] r IH]; intros c c' rest H F R S Hc; cbn [forward] in H.
    - inversion H; subst. repeat split; try lia. exists []. split; [reflexivity|]. intros _ m. apply same_refl.
    - destruct (alike c n && (c_off1 c + c_size c =? c_off1 n) && (c_off2 c + c_size c =? c_off2 n) && negb (c_off1 c =? c_off2 n)) eqn:E;
        [|inversion H; subst; repeat split; try lia; exists []; split; [reflexivity|intros _ m; apply same_refl]].
      rewrite !andb_true_iff, !Z.eqb_eq in E. destruct E as (((A & O1) & O2) & _).
      destruct (F A) as [B1 B2]. assert (T : c_type c = c_type n) by (apply alike_spec in A; apply A).
      assert (Sn : 0 <= c_size n) by (apply S; now left).
      set (c1 := resize c (c_off1 c) (c_off2 c) (c_size c + c_size n)) in *.
      destruct (IH c1 c' rest H) as (I1 & I2 & I3 & I4 & I5 & taken & -> & I6).
      + apply (front_change n); [symmetry; assumption..|]. apply front_regular. exact R.
      + destruct R as [_ R]. exact R.
      + intros y Hy. apply S. now right.
      + cbn. lia.
      + unfold c1 in I1, I2, I3, I4, I5. cbn [resize c_off1 c_off2 c_buf1 c_buf2 c_size] in I1, I2, I3, I4, I5.
        repeat split; auto; try lia. exists (Cpy n :: taken). split; [reflexivity|]. intros Hv m.
        eapply same_trans; [|apply I6; assumption]. cbn [MergeSpec.run MergeSpec.do_line]. apply run_same.
        apply fuse_up; auto. destruct Hv as [V1 V2]. split; [cbn; lia|]. cbn [resize c_off1 c_off2 c_buf1 c_buf2 c_size].
        rewrite I1, I2, I3, I4 in V2. destruct V2 as [V2|[V2|V2]]; [left; assumption|right; left; lia|right; right; lia].
    - inversion H; subst. repeat split; try lia. exists []. split; [reflexivity|]. intros _ m. apply same_refl.
  Qed.

  Lemma backward_ok ls : forall c last c' p1 p2 rest,
    backward c (c_off1 last) (c_off2 last) ls = (c', (p1, p2), rest) ->
    regular (Cpy last :: ls) -> sized ls -> 0 <= c_size last -> 0 <= c_size c ->
    c_type c = c_type last -> c_buf1 c = c_buf1 last -> c_buf2 c = c_buf2 last ->
    c_off1 c - c_size c = c_off1 last - c_size last -> c_off2 c - c_size c = c_off2 last - c_size last ->
    c_type c' = c_type c /\ c_buf1 c' = c_buf1 c /\ c_buf2 c' = c_buf2 c /\ c_size c <= c_size c' /\
    p1 + c_size c' = c_off1 last + c_size c /\ p2 + c_size c' = c_off2 last + c_size c /\
    exists taken, ls = taken ++ rest /\
    (valid (Cpy (resize c' p1 p2 (c_size c'))) -> forall m,
     same (run taken (do_copy (resize c (c_off1 last) (c_off2 last) (c_size c)) m)) (do_copy (resize c' p1 p2 (c_size c')) m)).
  Proof using other_same.
    induction ls as [|[n|x] r IH]; intros c last c' p1 p2 rest H R S Hl Hc T B1 B2 O1 O2; cbn [backward] in H.
    - inversion H; subst. repeat split; try lia. exists []. split; [reflexivity|]. intros _ m. apply same_refl.
    - destruct (alike c n && (c_off1 c - c_size c =? c_off1 n) && (c_off2 c - c_size c =? c_off2 n)) eqn:E;
        [|inversion H; subst; repeat split; try lia; exists []; split; [reflexivity|intros _ m; apply same_refl]].
      rewrite !andb_true_iff, !Z.eqb_eq in E. destruct E as ((A & P1) & P2).
      assert (Sn : 0 <= c_size n) by (apply S; now left).
      assert (A' := alike_trans c last n T B1 B2 A).
      destruct R as [R1 R2]. destruct (R1 A') as [[K1 K2] K3]. specialize (K3 ltac:(lia) ltac:(lia)).
      assert (Tn : c_type last = c_type n) by (apply alike_spec in A'; apply A').
      set (c1 := resize c (c_off1 c) (c_off2 c) (c_size c + c_size n)) in *.
      destruct (IH c1 n c' p1 p2 rest H R2) as (I1 & I2 & I3 & I4 & I5 & I6 & taken & -> & I7);
        [intros y Hy; apply S; now right|unfold c1; cbn [resize c_type c_off1 c_off2 c_buf1 c_buf2 c_size]; (lia || congruence)..|].
      unfold c1 in I1, I2, I3, I4, I5, I6, I7. cbn [resize c_type c_off1 c_off2 c_buf1 c_buf2 c_size] in I1, I2, I3, I4, I5, I6, I7.
      repeat split; auto; try lia. exists (Cpy n :: taken). split; [reflexivity|]. intros Hv m.
      eapply same_trans; [|apply I7; assumption]. cbn [MergeSpec.run MergeSpec.do_line]. apply run_same.
      set (e := resize c (c_off1 last) (c_off2 last) (c_size c)) in *.
      change (resize (resize c (c_off1 c) (c_off2 c) (c_size c + c_size n)) (c_off1 n) (c_off2 n) (c_size c + c_size n))
        with (resize e (c_off1 n) (c_off2 n) (c_size e + c_size n)).
      apply fuse_down; unfold e; cbn [resize c_type c_off1 c_off2 c_buf1 c_buf2 c_size]; try congruence; try lia.
      destruct Hv as [V1 V2]. split; [cbn; lia|]. cbn [resize c_off1 c_off2 c_buf1 c_buf2 c_size] in *.
      rewrite I2, I3 in V2. destruct V2 as [V2|[V2|V2]]; [left; assumption|right; left; lia|right; right; lia].
    - inversion H; subst. repeat split; try lia. exists []. split; [reflexivity|]. intros _ m. apply same_refl.
  Qed.

  Lemma resize_self c : resize c (c_off1 c) (c_off2 c) (c_size c) = c.
  Proof using. clear other_same. destruct c. reflexivity. Qed.
  Lemma merge_step_ok c ls c' rest : merge_step c ls = (c', rest) -> regular (Cpy c :: ls) -> sized (Cpy c :: ls) ->
    exists taken, ls = taken ++ rest /\ (valid (Cpy c') -> forall m, same (run taken (do_copy c m)) (do_copy c' m)).
  Proof using other_same.
    intros H R S. assert (Sc : 0 <= c_size c) by (apply S; now left).
    assert (Sl : sized ls) by (intros y Hy; apply S; now right).
    unfold merge_step in H. destruct (forward c ls) as [f r1] eqn:F.
    destruct (length r1 =? length ls)%nat.
    - destruct (backward c (c_off1 c) (c_off2 c) ls) as [[b [o1 o2]] r2] eqn:B. inversion H; subst.
      destruct (backward_ok ls c c b o1 o2 rest B R Sl) as (_ & _ & _ & _ & _ & _ & taken & -> & I); auto.
      exists taken. split; [reflexivity|]. intros Hv m. specialize (I Hv m). rewrite resize_self in I. exact I.
    - inversion H; subst. destruct (forward_ok ls c c' rest F) as (_ & _ & _ & _ & _ & taken & -> & I); auto.
      + apply front_regular; assumption.
      + destruct R as [_ R]. exact R.
      + exists taken. split; [reflexivity|exact I].
  Qed.

  Lemma merge_ok fuel : forall ls, (length ls <= fuel)%nat -> regular ls -> sized ls ->
    (forall l, In l (merge_aux fuel ls) -> valid l) -> forall m, same (run (merge_aux fuel ls) m) (run ls m).
  Proof using other_same.
    induction fuel as [|fuel IH]; intros ls L R S Hv m.
    - destruct ls; [apply same_refl|cbn in L; lia].
    - destruct ls as [|[c|x] r]; [apply same_refl| |]; cbn [merge_aux] in *.
      + destruct (merge_step c r) as [c' rest] eqn:E. destruct (merge_step_ok c r c' rest E R S) as (taken & -> & I).
        cbn [MergeSpec.run MergeSpec.do_line]. rewrite run_app.
        eapply same_trans; [apply IH|].
        * cbn in L. rewrite app_length in L. lia.
        * destruct R as [_ R]. apply regular_tail in R. exact R.
        * intros y Hy. apply S. right. apply in_or_app. now right.
        * intros l Hl. apply Hv. now right.
        * apply run_same. apply same_sym. apply I. apply Hv. now left.
      + cbn [MergeSpec.run]. apply IH; [cbn in L; lia|exact R|intros y Hy; apply S; now right|intros l Hl; apply Hv; now right].
  Qed.
  Lemma merge_correct ls : regular ls -> sized ls -> (forall l, In l (merge ls) -> valid l) ->
    forall m, same (run (merge ls) m) (run ls m).
  Proof using other_same. apply merge_ok. lia. Qed.
End Memory.
