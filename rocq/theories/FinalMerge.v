(* The passes behind optimise_buffers2: what is left of the code. *)
From Verif Require Import Base RawModel FinalModel FinalPass.

(* ---------- parallel_memcpy, one core ---------- *)
Definition sized (i : instr) : Prop := match i with Memcpy _ _ n | Reduce_ _ _ n => 0 < n | _ => True end.
Lemma same_dest_refl a : same_dest a a = true.
Proof. destruct a; cbn; auto using Nat.eqb_refl. Qed.
Lemma same_dest_eq a b : same_dest a b = true -> a = b.
Proof. destruct a, b; cbn; try discriminate; auto. intros H. apply Nat.eqb_eq in H. now subst. Qed.
Lemma look_ge ls : forall old d mx, mx <= look old d mx ls.
Proof.
  induction ls as [|i r IH]; intros old d mx; cbn [look]; [lia|].
  destruct i; try lia; try (cbn [dest_of]; destruct (same_dest old d); auto; fail);
    cbn [dest_of]; (destruct (same_dest old _); [|lia]); unfold split_copy;
    match goal with |- context [if ?c then Some _ else None] => destruct c; auto end;
    (match goal with |- context [if mx <? ?n then _ else _] => destruct (Nat.ltb_spec mx n) end);
    (etransitivity; [|apply IH]); lia.
Qed.
Lemma look_mono ls : forall old d mx mx', mx <= mx' -> look old d mx ls <= look old d mx' ls.
Proof.
  induction ls as [|i r IH]; intros old d mx mx' H; cbn [look]; auto.
  destruct i; auto; try (cbn [dest_of]; destruct (same_dest old d); auto; fail);
    cbn [dest_of]; (destruct (same_dest old _); auto); unfold split_copy;
    (match goal with |- context [if ?c then Some _ else None] => destruct c; auto end);
    apply IH;
    (match goal with |- context [if mx <? ?n then _ else _] => destruct (Nat.ltb_spec mx n), (Nat.ltb_spec mx' n) end); lia.
Qed.
(* the group of the next copy is at least as large as the copy *)
Lemma look_copy i r x n mx : split_copy i = Some (x, n) -> i <> Barrier ->
  n <= look (Some x) (Some x) mx (i :: r).
Proof.
  intros H _. assert (D : dest_of i = Some x).
  { unfold split_copy in H. destruct i; try discriminate; destruct (_ && _); inversion H; reflexivity. }
  cbn [look]. destruct i; try discriminate; rewrite D, same_dest_refl, H;
  (etransitivity; [|apply look_ge]); (match goal with |- context [if mx <? ?n then _ else _] => destruct (Nat.ltb_spec mx n) end); lia.
Qed.
Lemma look_step i r c mx : i <> Barrier -> dest_of i = None -> look c c mx (i :: r) = look c c mx r.
Proof. intros NB D. destruct i; try discriminate; try contradiction; cbn [look dest_of]; now rewrite same_dest_refl. Qed.
Lemma look_dest i r x mx : dest_of i = Some x -> look (Some x) (Some x) 0 r <= look (Some x) (Some x) mx (i :: r).
Proof.
  intros D. destruct i; try discriminate; cbn [look]; rewrite D, same_dest_refl; apply look_mono; lia.
Qed.
Lemma parallel_id ls : forall cur group, Forall sized ls -> look cur cur 0 ls <= group -> parallel cur cur group ls = ls.
Proof.
  induction ls as [|i r IH]; intros cur group SZ G; [reflexivity|]. inversion_clear SZ as [|? ? Hi Hr].
  assert (COPY : forall x, dest_of i = Some x -> forall g, (if same_dest cur (Some x) then group else look (Some x) (Some x) 0 (i :: r)) = g ->
    look (Some x) (Some x) 0 r <= g /\ (forall y n, split_copy i = Some (y, n) -> n <= g)).
  { intros x D g Eg. assert (X : look (Some x) (Some x) 0 (i :: r) <= g).
    { destruct (same_dest cur (Some x)) eqn:E; [|lia]. apply same_dest_eq in E. subst. exact G. }
    split; [etransitivity; [|exact X]; now apply look_dest|].
    intros y n SC. assert (y = x) by (unfold split_copy in SC; destruct i; try discriminate; destruct (_ && _); inversion SC; cbn in D; congruence).
    subst y. etransitivity; [|exact X]. apply look_copy; auto. intros ->. discriminate. }
  destruct i as [d n q|s n q| | |d s n|d s n]; cbn [parallel dest_of]; try rewrite same_dest_refl; try rewrite IH; auto;
    try (etransitivity; [|exact G]; rewrite look_step by (reflexivity || discriminate); lia).
  - destruct (COPY _ eq_refl _ eq_refl) as [C1 C2].
    destruct (same_dest cur (Some (snd d))) eqn:E; [apply same_dest_eq in E; subst cur|];
    unfold split_copy in C2; (destruct (is_shm d && is_shm s); [|now rewrite IH by assumption]);
    specialize (C2 _ _ eq_refl); cbn in Hi;
    match goal with |- context [if n <? ?g then n else ?g] => replace (if n <? g then n else g) with n by (destruct (Nat.ltb_spec n g); lia) end;
    (destruct (Nat.eqb_spec n 0); [lia|]); cbn [app]; now rewrite IH by assumption.
  - destruct (COPY _ eq_refl _ eq_refl) as [C1 C2].
    destruct (same_dest cur (Some (snd d))) eqn:E; [apply same_dest_eq in E; subst cur|];
    unfold split_copy in C2; (destruct (is_shm d && is_shm s); [|now rewrite IH by assumption]);
    specialize (C2 _ _ eq_refl); cbn in Hi;
    match goal with |- context [if n <? ?g then n else ?g] => replace (if n <? g then n else g) with n by (destruct (Nat.ltb_spec n g); lia) end;
    (destruct (Nat.eqb_spec n 0); [lia|]); cbn [app]; now rewrite IH by assumption.
Qed.
Lemma parallel_memcpy_id ls : Forall sized ls -> parallel_memcpy ls = ls.
Proof.
  intros H. apply parallel_id; auto. destruct ls as [|i r]; [auto|].
  revert H. generalize 0 at 1 2. intros z _.
  assert (X : forall l, look None None z l = z).
  { induction l as [|j l IH]; auto. destruct j; cbn; auto. }
  now rewrite X.
Qed.

(* ---------- merge ---------- *)
Lemma forward_sep i r : copy_of i = None -> forall l c, forward c (l ++ i :: r) = (fst (forward c l), snd (forward c l) ++ i :: r).
Proof.
  intros Hi. induction l as [|j l IH]; intros c; cbn [app forward].
  - now rewrite Hi.
  - destruct (copy_of j); auto. destruct (alike _ _ && _ && _ && _); auto.
Qed.
Lemma backward_sep i r : copy_of i = None -> forall l c o1 o2, backward c o1 o2 (l ++ i :: r) =
  (fst (backward c o1 o2 l), snd (backward c o1 o2 l) ++ i :: r).
Proof.
  intros Hi. induction l as [|j l IH]; intros c o1 o2; cbn [app backward].
  - now rewrite Hi.
  - destruct (copy_of j); auto. destruct (alike _ _ && _ && _); auto.
Qed.
Lemma merge_step_sep i r : copy_of i = None -> forall l c,
  merge_step c (l ++ i :: r) = (fst (merge_step c l), snd (merge_step c l) ++ i :: r).
Proof.
  intros Hi l c. unfold merge_step. rewrite forward_sep by assumption. destruct (forward c l) as [f rest]. cbn [fst snd].
  rewrite !app_length. destruct (Nat.eqb_spec (length rest) (length l)) as [E|E].
  - rewrite (proj2 (Nat.eqb_eq (length rest + length (i :: r)) (length l + length (i :: r)))) by lia.
    rewrite backward_sep by assumption. destruct (backward c _ _ l) as [[b [o1 o2]] rest']. reflexivity.
  - rewrite (proj2 (Nat.eqb_neq (length rest + length (i :: r)) (length l + length (i :: r)))) by lia. reflexivity.
Qed.
Lemma forward_shorter ls : forall c, length (snd (forward c ls)) <= length ls.
Proof.
  induction ls as [|i r IH]; intros c; cbn [forward]; auto. destruct (copy_of i); auto.
  destruct (_ && _ && _ && _); auto. specialize (IH (Copy (red c) (dst c) (src c) (size c + size c0))). cbn. lia.
Qed.
Lemma backward_shorter ls : forall c o1 o2, length (snd (backward c o1 o2 ls)) <= length ls.
Proof.
  induction ls as [|i r IH]; intros c o1 o2; cbn [backward]; auto. destruct (copy_of i); auto.
  destruct (_ && _ && _); auto.
  specialize (IH (Copy (red c) (dst c) (src c) (size c + size c0)) (snd (dst c0)) (snd (src c0))). cbn. lia.
Qed.
Lemma merge_step_shorter c ls : length (snd (merge_step c ls)) <= length ls.
Proof.
  unfold merge_step. pose proof (forward_shorter ls c) as F. destruct (forward c ls) as [f rest]. cbn in F.
  destruct (length rest =? length ls); [|exact F].
  pose proof (backward_shorter ls c (snd (dst c)) (snd (src c))) as B. destruct (backward c _ _ ls) as [[b [o1 o2]] rest']. exact B.
Qed.
Lemma merge_fuel f : forall f' ls, length ls <= f -> length ls <= f' -> merge_lines f ls = merge_lines f' ls.
Proof.
  induction f as [|f IH]; intros f' ls H H'.
  - destruct ls; [|cbn in H; lia]. destruct f'; reflexivity.
  - destruct ls as [|i r]; [destruct f'; reflexivity|]. destruct f' as [|f']; [cbn in H'; lia|].
    cbn in H, H'. cbn [merge_lines]. destruct (copy_of i) as [c|].
    + pose proof (merge_step_shorter c r) as M. destruct (merge_step c r) as [c' rest]. cbn in M. rewrite (IH f') by lia. reflexivity.
    + rewrite (IH f') by lia. reflexivity.
Qed.
Lemma merge_copy i c r : copy_of i = Some c -> merge (i :: r) = line_of (fst (merge_step c r)) :: merge (snd (merge_step c r)).
Proof.
  intros H. unfold merge. cbn [length merge_lines]. rewrite H. pose proof (merge_step_shorter c r) as M.
  destruct (merge_step c r) as [c' rest]. cbn [fst snd] in *. f_equal. apply merge_fuel; lia.
Qed.
Lemma merge_other i r : copy_of i = None -> merge (i :: r) = i :: merge r.
Proof. intros H. unfold merge. cbn [length merge_lines]. now rewrite H. Qed.
Lemma merge_sep i r : copy_of i = None -> forall k l, length l <= k -> merge (l ++ i :: r) = merge l ++ i :: merge r.
Proof.
  intros Hi. induction k as [|k IH]; intros l L.
  - destruct l; [|cbn in L; lia]. cbn [app]. now apply merge_other.
  - destruct l as [|j l]; [cbn [app]; now apply merge_other|]. cbn [app]. cbn in L.
    destruct (copy_of j) as [c|] eqn:E.
    + rewrite !(merge_copy j c) by assumption. rewrite merge_step_sep by assumption. cbn [fst snd app]. f_equal.
      apply IH. pose proof (merge_step_shorter c l). lia.
    + rewrite !(merge_other j) by assumption. cbn [app]. f_equal. apply IH. lia.
Qed.
Lemma merge_others l r : Forall (fun i => copy_of i = None) l -> merge (l ++ r) = l ++ merge r.
Proof. induction 1 as [|i l Hi Hl IH]; [reflexivity|]. cbn [app]. rewrite merge_other by assumption. now rewrite IH. Qed.

(* copies from or to the user's buffers stay such copies *)
Definition user_line (i : instr) : Prop :=
  match i with Memcpy d s _ | Reduce_ d s _ => is_shm d && is_shm s = false | Barrier => True | _ => False end.
Lemma user_copy i c : copy_of i = Some c -> user_line i -> is_shm (dst c) && is_shm (src c) = false.
Proof. destruct i; try discriminate; intros H; inversion H; subst; auto. Qed.
Lemma forward_user ls : forall c, Forall user_line ls -> Forall user_line (snd (forward c ls)) /\
  dst (fst (forward c ls)) = dst c /\ src (fst (forward c ls)) = src c.
Proof.
  induction ls as [|i r IH]; intros c H; cbn [forward]; auto. destruct (copy_of i); auto. destruct (_ && _ && _ && _); auto.
  inversion_clear H. destruct (IH (Copy (red c) (dst c) (src c) (size c + size c0)) H1) as (A & B & C). auto.
Qed.
Lemma backward_user ls : forall c o1 o2, Forall user_line ls -> Forall user_line (snd (backward c o1 o2 ls)) /\
  dst (fst (fst (backward c o1 o2 ls))) = dst c /\ src (fst (fst (backward c o1 o2 ls))) = src c.
Proof.
  induction ls as [|i r IH]; intros c o1 o2 H; cbn [backward]; auto. destruct (copy_of i); auto. destruct (_ && _ && _); auto.
  inversion_clear H. destruct (IH (Copy (red c) (dst c) (src c) (size c + size c0)) (snd (dst c0)) (snd (src c0)) H1) as (A & B & C). auto.
Qed.
Lemma merge_step_user c ls : Forall user_line ls -> is_shm (dst c) && is_shm (src c) = false ->
  Forall user_line (snd (merge_step c ls)) /\ user_line (line_of (fst (merge_step c ls))).
Proof.
  intros H C. unfold merge_step. pose proof (forward_user ls c H) as (F1 & F2 & F3). destruct (forward c ls) as [f rest]. cbn [fst snd] in *.
  destruct (length rest =? length ls).
  - pose proof (backward_user ls c (snd (dst c)) (snd (src c)) H) as (B1 & B2 & B3). destruct (backward c _ _ ls) as [[b [o1 o2]] rest']. cbn [fst snd] in *.
    split; auto. unfold line_of. cbn [red dst src size]. unfold is_shm in *. cbn [fst]. rewrite <- B2, <- B3 in C. destruct (red b); cbn; unfold is_shm; exact C.
  - cbn [fst snd]. split; auto. unfold line_of. rewrite <- F2, <- F3 in C. destruct (red f); exact C.
Qed.
Lemma merge_user k : forall l, length l <= k -> Forall user_line l -> Forall user_line (merge l).
Proof.
  induction k as [|k IH]; intros l L H; [destruct l; [constructor|cbn in L; lia]|].
  destruct H as [|i l Hi Hl]; [constructor|]. cbn in L. destruct (copy_of i) as [c|] eqn:E.
  - rewrite (merge_copy i c) by assumption. destruct (merge_step_user c l Hl (user_copy i c E Hi)) as [A B].
    constructor; auto. apply IH; auto. pose proof (merge_step_shorter c l). lia.
  - rewrite merge_other by assumption. constructor; auto. apply IH; [lia|auto].
Qed.

(* ---------- barriers ---------- *)
Lemma clean_no ls : forall f, no_socket_barriers (clean f ls) = no_socket_barriers ls.
Proof. unfold no_socket_barriers. induction ls as [|i r IH]; intros f; [reflexivity|]. destruct i, f; cbn; rewrite IH; reflexivity. Qed.
Lemma first_no ls : no_socket_barriers (no_first_barrier ls) = no_socket_barriers ls.
Proof. unfold no_socket_barriers. induction ls as [|i r IH]; [reflexivity|]. destruct i; cbn; rewrite ?IH; reflexivity. Qed.
Lemma no_barriers_left (alt : bool) ls :
  no_socket_barriers (if alt then no_first_barrier (clean_barriers ls) else clean_barriers ls) = no_socket_barriers ls.
Proof. unfold clean_barriers. destruct alt; now rewrite ?first_no, clean_no. Qed.
Lemma nb_app l r : no_socket_barriers (l ++ r) = no_socket_barriers l ++ no_socket_barriers r.
Proof. apply filter_app. Qed.

(* ---------- all together ---------- *)
Section Final.
  Context (base : nat -> nat) (alt : bool) (total : nat) (big : bool).
  Definition use (l : list instr) : list instr := use_sendbuf_recvbuf total big (no_socket_barriers l).
  Lemma use_app l r : use (l ++ r) = use l ++ use r.
  Proof. unfold use, use_sendbuf_recvbuf. now rewrite nb_app, flat_map_app. Qed.
  Lemma use_user l : Forall user_line l -> use l = [].
  Proof.
    induction 1 as [|i l Hi Hl IH]; [reflexivity|]. change (i :: l) with ([i] ++ l). rewrite use_app, IH, app_nil_r.
    unfold use. destruct i; try (now destruct Hi); cbn; cbn in Hi; now rewrite Hi.
  Qed.
  Definition fin (e : exch) : list instr :=
    use (map direct_in (ins e)) ++ use (map direct_out (outs e)) ++ Waitall :: use (merge (reds e)).
  Lemma merge_directs es : forall f post, Forall user_line post ->
    use (merge (directs f es ++ post)) = flat_map fin es.
  Proof.
    induction es as [|e es IH]; intros f post P.
    - cbn [directs app flat_map]. rewrite merge_other by reflexivity. change (Barrier :: merge post) with ([Barrier] ++ merge post).
      rewrite use_app. rewrite (use_user (merge post)); [reflexivity|]. now apply (merge_user (length post)).
    - cbn [directs flat_map]. unfold direct. repeat (rewrite <- ?app_assoc; cbn [app]).
      rewrite (merge_others (bar f)) by (destruct f; repeat constructor).
      rewrite (merge_others (map direct_in (ins e))) by (apply Forall_forall; intros i I; apply in_map_iff in I; destruct I as (? & <- & _); reflexivity).
      rewrite (merge_others (map direct_out (outs e))) by (apply Forall_forall; intros i I; apply in_map_iff in I; destruct I as (? & <- & _); reflexivity).
      rewrite !merge_other by reflexivity.
      assert (ST : exists i r, directs false es ++ post = i :: r /\ copy_of i = None) by (destruct es; cbn; eauto).
      destruct ST as (i & r & EQ & NC). rewrite EQ. rewrite (merge_sep i r NC (length (reds e)) (reds e) (le_n _)).
      rewrite <- (merge_other i r NC), <- EQ.
      assert (BAR : use (bar f) = []) by (now destruct f).
      change (Waitall :: Barrier :: Barrier :: merge (reds e) ++ merge (directs false es ++ post))
        with ([Waitall; Barrier; Barrier] ++ merge (reds e) ++ merge (directs false es ++ post)).
      rewrite !use_app, BAR, (IH false post P). unfold fin. repeat (rewrite <- ?app_assoc; cbn [app]). reflexivity.
  Qed.
  Lemma in_user l : Forall (copied_in base) l -> Forall user_line l.
  Proof.
    intros H. eapply Forall_impl; [|exact H]. intros i Hi. destruct i as [| | | |d s n|]; try exact I; try (now destruct Hi).
    destruct s as [[] y]; destruct d as [[| |[]] x]; first [reflexivity|now destruct Hi].
  Qed.
  Lemma out_user l : Forall copied_out l -> Forall user_line l.
  Proof.
    intros H. eapply Forall_impl; [|exact H]. intros i Hi. destruct i as [| | | |d s n|]; try exact I; try (now destruct Hi).
    destruct s as [[] y]; destruct d as [[| |[]] x]; first [reflexivity|now destruct Hi].
  Qed.
  Lemma final_program ls pre es post : (forall k, base k <= base (S k)) ->
    map (flat_instr base) ls = pre ++ ecodes base true es ++ post ->
    Forall (copied_in base) pre -> Forall (shape base) es -> Forall copied_out post ->
    Forall sized pre -> Forall sized post -> Forall (fun e => Forall sized (reds e)) es ->
    final_code base alt total big ls = flat_map fin es.
  Proof.
    intros MONO E Pre H Post S1 S2 S3. unfold final_code, optimised. rewrite E.
    rewrite optimise_program by assumption.
    assert (SZ : Forall sized (pre ++ directs true es ++ post)).
    { apply Forall_app. split; auto. apply Forall_app. split; auto. clear - S3. generalize true. induction S3 as [|e es He Hes IH]; intros f; cbn [directs].
      - repeat constructor.
      - apply Forall_app. split; [|apply IH]. unfold direct. repeat (apply Forall_app; split).
        + destruct f; repeat constructor.
        + apply Forall_forall; intros i I; apply in_map_iff in I; destruct I as (? & <- & _); exact I.
        + apply Forall_forall; intros i I; apply in_map_iff in I; destruct I as (? & <- & _); exact I.
        + repeat constructor. exact He. }
    rewrite parallel_memcpy_id by exact SZ. rewrite no_barriers_left.
    fold (use (merge (pre ++ directs true es ++ post))).
    assert (ST : exists i r, directs true es ++ post = i :: r /\ copy_of i = None).
    { destruct es as [|e es]; [cbn; eauto|]. cbn [directs]. unfold direct. cbn [bar app].
      destruct (ins e); cbn; eauto. destruct (outs e); cbn; eauto. }
    destruct ST as (i & r & EQ & NC). rewrite EQ, (merge_sep i r NC (length pre) pre (le_n _)), <- (merge_other i r NC), <- EQ.
    rewrite use_app, (use_user (merge pre)) by (apply (merge_user (length pre)); auto using in_user).
    apply merge_directs. now apply out_user.
  Qed.
End Final.
