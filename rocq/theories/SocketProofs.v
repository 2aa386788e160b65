(* Proofs about messages_shared_memory.c and optimise_multi_socket.c. *)
From Verif Require Import Base SchedModel SchedSpec RawModel FinalModel SocketModel SocketSpec.
Local Ltac Zify.zify_post_hook ::= idtac.
Local Open Scope nat_scope.

(* ---------- the source of a copy ---------- *)
Lemma owner_number S p q : 0 < S -> on_node S p q = true -> owner S p ((S - q mod S + p) mod S) = q.
Proof.
  intros HS H. unfold on_node in H. apply Nat.eqb_eq in H. unfold owner. rewrite <- H.
  transitivity (S * (q / S) + q mod S); [|symmetry; apply Nat.div_mod_eq]. rewrite (Nat.mul_comm S). f_equal.
  assert (Hq := Nat.mod_upper_bound q S ltac:(lia)). assert (Hp := Nat.mod_upper_bound p S ltac:(lia)).
  rewrite <- (Nat.add_mod_idemp_r _ p S) by lia.
  destruct (le_lt_dec S (S - q mod S + p mod S)) as [L|L].
  - assert (E : (S - q mod S + p mod S) mod S = p mod S - q mod S).
    { replace (S - q mod S + p mod S) with (p mod S - q mod S + 1 * S) by lia.
      rewrite Nat.mod_add by lia. apply Nat.mod_small. lia. }
    rewrite E. replace (p mod S + S - (p mod S - q mod S)) with (q mod S + 1 * S) by lia.
    rewrite Nat.mod_add by lia. apply Nat.mod_small. lia.
  - rewrite (Nat.mod_small (S - q mod S + p mod S)) by lia.
    replace (p mod S + S - (S - q mod S + p mod S)) with (q mod S) by lia. apply Nat.mod_small. lia.
Qed.
Lemma owner_self S p : 0 < S -> owner S p 0 = p.
Proof.
  intros HS. unfold owner. assert (Hp := Nat.mod_upper_bound p S ltac:(lia)).
  replace (p mod S + S - 0) with (p mod S + 1 * S) by lia. rewrite Nat.mod_add, Nat.mod_small by lia.
  rewrite (Nat.mul_comm _ S). symmetry. apply Nat.div_mod_eq.
Qed.
Lemma view_other {V} S (m : nat -> @memory V) p q o : 0 < S -> on_node S p q = true ->
  view S m p (Shm ((S - q mod S + p) mod S), o) = m q (Shm 0, o).
Proof.
  intros HS H. assert (O := owner_number S p q HS H). unfold view. cbn [fst snd].
  destruct ((S - q mod S + p) mod S) as [|k]; rewrite <- O; [|reflexivity].
  rewrite owner_self by assumption. reflexivity.
Qed.

(* ---------- the barriers ---------- *)
Lemma nb_app a b : node_barriers (a ++ b) = node_barriers a + node_barriers b.
Proof. unfold node_barriers. rewrite filter_app, app_length. reflexivity. Qed.
Lemma nb_own l : node_barriers (map Own l) = 0.
Proof. unfold node_barriers. induction l; [reflexivity|exact IHl]. Qed.
Lemma nb_keep S p l : node_barriers (keep S p l) = 0.
Proof. apply nb_own. Qed.
Definition some_copy (S N : nat) (prog : nat -> list instr) (j : nat) : bool := existsb (fun q => has_copy S q j (prog q)) (seq 0 N).
Lemma nb_copies S p prog l : node_barriers (map (copy_for S p prog) l) = 0.
Proof. unfold node_barriers. induction l as [|r l IH]; [reflexivity|]. cbn [map]. unfold copy_for at 1. destruct nth_send. exact IH. Qed.
Lemma nb_after S N p prog j recvs : node_barriers (after_wait S N p prog j recvs) = if some_copy S N prog j then 2 else 0.
Proof.
  unfold after_wait. fold (some_copy S N prog j). destruct some_copy; [|reflexivity].
  destruct (filter _ recvs) as [|r l]; [reflexivity|]. rewrite !nb_app, nb_copies. reflexivity.
Qed.
Fixpoint nb_expected (S N : nat) (prog : nat -> list instr) (j n : nat) : nat :=
  match n with O => 0 | Datatypes.S n' => (if some_copy S N prog j then 2 else 0) + nb_expected S N prog (j + 1) n' end.
Lemma nb_lines S N p prog ls : forall j recvs seen pending,
  node_barriers (shared_lines S N p prog j recvs seen pending ls) = nb_expected S N prog j (waitalls ls).
Proof.
  induction ls as [|i ls IH]; intros j recvs seen pending; [apply nb_own|].
  destruct i; cbn [shared_lines]; try apply IH.
  rewrite !nb_app, nb_keep, nb_after, IH. reflexivity.
Qed.
Lemma node_barriers_same S N prog p q : waitalls (prog p) = waitalls (prog q) ->
  node_barriers (messages_shared_memory S N prog p) = node_barriers (messages_shared_memory S N prog q).
Proof. intros H. unfold messages_shared_memory. rewrite !nb_lines, H. reflexivity. Qed.

(* ---------- the lines ---------- *)
Lemma steady_app a b : steady_lines (a ++ b) = steady_lines a ++ steady_lines b.
Proof. unfold steady_lines. apply flat_map_app. Qed.
Lemma steady_own l : steady_lines (map Own l) = filter steady l.
Proof. unfold steady_lines. induction l as [|i l IH]; [reflexivity|]. cbn [map flat_map filter]. rewrite IH. destruct (steady i); reflexivity. Qed.
Lemma steady_keep S p l : steady_lines (keep S p l) = filter steady l.
Proof.
  unfold keep. rewrite steady_own. induction l as [|i l IH]; [reflexivity|].
  destruct i; cbn [filter stays steady]; try (rewrite IH; reflexivity); try exact IH;
  destruct (on_node S p _); cbn [negb filter steady]; exact IH.
Qed.
Lemma steady_copies S p prog l : steady_lines (map (copy_for S p prog) l) = [].
Proof. unfold steady_lines. induction l as [|r l IH]; [reflexivity|]. cbn [map flat_map]. unfold copy_for at 1. destruct nth_send. exact IH. Qed.
Lemma steady_after S N p prog j recvs : steady_lines (after_wait S N p prog j recvs) = [].
Proof.
  unfold after_wait. destruct existsb; [|reflexivity]. destruct (filter _ recvs); [reflexivity|].
  rewrite !steady_app, steady_copies. reflexivity.
Qed.
Lemma lines_steady S N p prog ls : forall j recvs seen pending,
  steady_lines (shared_lines S N p prog j recvs seen pending ls) = filter steady (pending ++ ls).
Proof.
  induction ls as [|i ls IH]; intros j recvs seen pending; [rewrite app_nil_r; apply steady_own|].
  destruct i; cbn [shared_lines]; try (rewrite IH, <- app_assoc; reflexivity).
  rewrite !steady_app, steady_keep, steady_after, IH. rewrite !filter_app. cbn [app filter steady]. rewrite <- app_assoc. reflexivity.
Qed.

(* no message to the own node is left *)
Definition leaves_node (S p : nat) (l : sline) : Prop := match l with Own i => stays S p i = true | NodeBarrier => True end.
Lemma keep_leaves S p l : Forall (leaves_node S p) (keep S p l).
Proof.
  unfold keep. apply Forall_forall. intros x Hx. apply in_map_iff in Hx. destruct Hx as (i & <- & Hi).
  apply filter_In in Hi. apply Hi.
Qed.
Lemma after_leaves S N p prog j recvs : Forall (leaves_node S p) (after_wait S N p prog j recvs).
Proof.
  unfold after_wait. destruct existsb; [|constructor].
  assert (C : forall l, Forall (leaves_node S p) (map (copy_for S p prog) l)).
  { induction l as [|r l IH]; [constructor|]. cbn [map]. constructor; [|exact IH]. unfold copy_for. destruct nth_send. reflexivity. }
  destruct (filter _ recvs) as [|r l]; [repeat constructor|].
  rewrite !Forall_app. split; [split|]; [repeat constructor|apply C|repeat constructor].
Qed.
Lemma lines_leave S N p prog ls : forall j recvs seen pending, awaited (existsb is_message pending) ls = true ->
  Forall (leaves_node S p) (shared_lines S N p prog j recvs seen pending ls).
Proof.
  assert (X : forall pending i, existsb is_message (pending ++ [i]) = existsb is_message pending || is_message i).
  { intros. rewrite existsb_app. cbn. rewrite orb_false_r. reflexivity. }
  induction ls as [|i ls IH]; intros j recvs seen pending H.
  - cbn [shared_lines]. cbn [awaited] in H. apply Forall_forall. intros x Hx. apply in_map_iff in Hx.
    destruct Hx as (i & <- & Hi). apply negb_true_iff in H. cbn [leaves_node].
    assert (M : is_message i = false).
    { destruct (is_message i) eqn:E; [|reflexivity]. rewrite <- H. symmetry. apply existsb_exists. exists i. split; assumption. }
    destruct i; try reflexivity; discriminate M.
  - destruct i; cbn [shared_lines awaited] in *;
      try (apply IH; rewrite X; exact H).
    rewrite !Forall_app. split; [apply keep_leaves|]. split; [apply after_leaves|]. apply IH. exact H.
Qed.

(* messages are not added *)
Lemma lines_from S N p prog ls : forall j recvs seen pending i,
  In (Own i) (shared_lines S N p prog j recvs seen pending ls) -> is_message i = true -> In i (pending ++ ls).
Proof.
  assert (A : forall j recvs i, In (Own i) (after_wait S N p prog j recvs) -> is_message i = false).
  { intros j recvs i. unfold after_wait. destruct existsb; [|contradiction].
    assert (C : forall l, In (Own i) (map (copy_for S p prog) l) -> is_message i = false).
    { intros l H. apply in_map_iff in H. destruct H as (r & H & _). unfold copy_for in H. destruct nth_send. injection H as <-. reflexivity. }
    destruct (filter _ recvs) as [|r l].
    - cbn. intros [H|[H|[H|[H|[]]]]]; try discriminate; injection H as <-; reflexivity.
    - rewrite !in_app_iff. intros [[H|H]|H]; [|exact (C _ H)|];
        cbn in H; destruct H as [H|[H|[]]]; try discriminate; injection H as <-; reflexivity. }
  induction ls as [|i ls IH]; intros j recvs seen pending x Hx Mx.
  - cbn [shared_lines] in Hx. apply in_map_iff in Hx. destruct Hx as (y & E & Hy). injection E as ->. rewrite app_nil_r. exact Hy.
  - destruct i; cbn [shared_lines] in Hx;
      try (apply IH in Hx; [|exact Mx]; rewrite <- app_assoc in Hx; exact Hx).
    rewrite !in_app_iff in Hx. destruct Hx as [Hx|[Hx|Hx]].
    + unfold keep in Hx. apply in_map_iff in Hx. destruct Hx as (y & E & Hy). injection E as ->. apply filter_In in Hy. destruct Hy as [Hy _].
      rewrite in_app_iff in Hy |- *. destruct Hy as [Hy|[<-|[]]]; [left; exact Hy|discriminate Mx].
    + apply A in Hx. congruence.
    + apply IH in Hx; [|exact Mx]. rewrite in_app_iff. right. right. exact Hx.
Qed.

(* ---------- optimise_multi_socket.c without copies from other sockets ---------- *)
Lemma fused_none d s n r : from_other (Own (Memcpy d s n)) = false -> fused d s n r = None.
Proof. destruct s as [[| |[|k]] o]; unfold fused; cbn; intros H; try reflexivity; discriminate. Qed.
Lemma multi_same ls : forall held, existsb from_other ls = false -> multi_socket held None ls = ls.
Proof.
  induction ls as [|l ls IH]; intros held H; [reflexivity|]. cbn [existsb] in H. apply orb_false_iff in H. destruct H as [H1 H2].
  destruct l as [i|]; [|cbn [multi_socket one_less]; rewrite IH by assumption; reflexivity].
  destruct i; cbn [multi_socket one_less]; try (rewrite IH by assumption; reflexivity).
  rewrite fused_none by assumption. rewrite IH by assumption. reflexivity.
Qed.

(* ---------- runs ---------- *)
Lemma srun_reach {V} (op : V -> V -> V) S order : forall s t, Forall (fun p => p < S) order ->
  srun op S order s = Some t -> sreach op S s t.
Proof.
  assert (T : forall s t u, sreach op S s t -> sreach op S t u -> sreach op S s u).
  { intros s t u A B. induction B as [|t' u p _ IH Hp E]; [exact A|]. eapply SStep; [exact IH|exact Hp|exact E]. }
  induction order as [|p r IH]; intros s t F E; cbn in E; [injection E as <-; constructor|].
  inversion F as [|? ? Hp F']; subst. destruct (sstep op S s p) as [u|] eqn:U; [|discriminate].
  apply T with u; [|apply IH; assumption]. eapply SStep; [constructor|exact Hp|exact U].
Qed.
