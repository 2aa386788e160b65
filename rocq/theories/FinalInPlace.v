(* The generated code, before the optimisation passes, in place. *)
From Verif Require Import Base SchedModel SchedSpec RecursiveModel RecursiveArith RecursiveSpec RecursiveProofs ReduceProofs AllreduceProofs
  MatchProofs RawModel RawSpec MsgProofs PhaseProofs RawCode RawStage RawProofs RawEnd RawWhole RawInst
  FinalModel.
Local Ltac Zify.zify_post_hook ::= idtac.

(* ---------- code without the send buffer ---------- *)
Definition off_user (l : loc) : Prop := fst l <> Sendbuf.
Definition sends_off (i : instr) : Prop :=
  match i with
  | Irecv l _ _ | Isend l _ _ => off_user l
  | Memcpy d s _ | Reduce_ d s _ => off_user d /\ off_user s
  | _ => True
  end.
Lemma in_place_off l : off_user l -> in_place l = l.
Proof. unfold off_user, in_place. destruct l as [[]]; cbn; intros H; congruence. Qed.
Lemma in_place_same l : Forall sends_off l -> in_place_code l = l.
Proof.
  induction 1 as [|i l Hi Hl IH]; [reflexivity|]. unfold in_place_code in *. cbn [map]. rewrite IH. f_equal.
  destruct i; cbn [in_place_instr sends_off] in *; rewrite ?in_place_off by tauto; reflexivity.
Qed.
Ltac offs := repeat constructor; discriminate.
Section Code.
  Context (size_of : nat -> nat) (N node : nat).
  Lemma pack_entries_off b q n c es : forall add, Forall sends_off (fst (pack_entries size_of node b q n c es add)).
  Proof.
    induction es as [|e es IH]; intros add; [constructor|]. cbn [pack_entries]. destruct (_ && _).
    - specialize (IH (add + line_size size_of b n)). destruct (pack_entries _ _ _ _ _ _ _ _). cbn [fst] in *. apply Forall_app. split; [|exact IH]. destruct (_ =? 0); offs.
    - apply IH.
  Qed.
  Lemma pack_lines_off b q c ns : forall add, Forall sends_off (fst (pack_lines size_of node b q c ns add)).
  Proof.
    induction ns as [|n ns IH]; intros add; [constructor|]. cbn [pack_lines].
    assert (E := pack_entries_off b q n c (sendto (lines b n)) add). destruct (pack_entries _ _ _ _ _ _ _ _) as [l x]. specialize (IH x).
    destruct (pack_lines _ _ _ _ _ _ _). cbn [fst] in *. apply Forall_app. now split.
  Qed.
  Lemma sends_sends_off b os : forall c, Forall sends_off (sends size_of N node b os c).
  Proof.
    induction os as [|o os IH]; intros c; [constructor|]. cbn [sends].
    assert (E := pack_lines_off b (to_node N node o) c (seq 0 (num_lines b)) 0). destruct (pack_lines _ _ _ _ _ _ _) as [l x]. cbn [fst] in E.
    apply Forall_app. split; [exact E|]. destruct (_ =? 0); [apply IH|]. constructor; [exact I|]. constructor; [discriminate|apply IH].
  Qed.
  Lemma receives_off b os : forall c, Forall sends_off (receives size_of N node b os c).
  Proof. induction os as [|o os IH]; intros c; [constructor|]. cbn [receives]. destruct (_ =? 0); [apply IH|]. constructor; [discriminate|apply IH]. Qed.
  Lemma unpacks_off b os : forall c, Forall sends_off (unpacks size_of N node b os c).
  Proof.
    induction os as [|o os IH]; intros c; [constructor|]. cbn [unpacks]. destruct (_ =? 0); [apply IH|]. constructor; [|apply IH].
    destruct (recvfrom _); [split; discriminate|]. destruct (is_node _ _); split; discriminate.
  Qed.
  Lemma reduces_off b : Forall sends_off (reduces size_of b).
  Proof.
    apply Forall_forall. intros i Hi. unfold reduces in Hi. apply in_flat_map in Hi. destruct Hi as (n & _ & Hi). apply in_flat_map in Hi.
    destruct Hi as (r & _ & Hi). destruct (_ =? 0); [destruct Hi|]. destruct Hi as [<-|[]]. split; discriminate.
  Qed.
  Lemma copyreduces_off b : Forall sends_off (copyreduces size_of b).
  Proof.
    apply Forall_forall. intros i Hi. unfold copyreduces in Hi. apply in_flat_map in Hi. destruct Hi as (n & _ & Hi). destruct (_ =? 0); [destruct Hi|].
    destruct (copyreducefrom _) as [|r0 rs]; [destruct Hi|]. destruct Hi as [<-|Hi]; [split; discriminate|]. apply in_map_iff in Hi. destruct Hi as (r & <- & _). split; discriminate.
  Qed.
  Lemma blocks_off bs : forall first, Forall sends_off (blocks_code size_of N node bs first).
  Proof.
    induction bs as [|b bs IH]; intros first; [repeat constructor|]. cbn [blocks_code]. apply Forall_app. split; [|apply IH].
    unfold block_code, post_code, after_code. apply Forall_app. split.
    - apply Forall_app. split; [destruct first; repeat constructor|]. apply Forall_app. split; [apply receives_off|apply sends_sends_off].
    - constructor; [exact I|]. constructor; [exact I|]. apply Forall_app. split; [apply unpacks_off|]. constructor; [exact I|].
      apply Forall_app. split; [apply reduces_off|apply copyreduces_off].
  Qed.
End Code.
Lemma copyout_off mc b count ns : forall add, Forall sends_off (copyout_lines mc b count ns add).
Proof.
  induction ns as [|n ns IH]; intros add; [constructor|]. cbn [copyout_lines]. apply Forall_app. split; [|apply IH].
  destruct (existsb _ _); [|constructor]. destruct (overlapp _ _ _ _) as [size a]. destruct (_ =? 0); offs.
Qed.

(* ---------- copying in ---------- *)
Definition aliased {V} (m : @memory V) : @memory V := fun a => match fst a with Sendbuf => m (Recvbuf, snd a) | _ => m a end.
Definition copies_in (i : instr) : Prop :=
  match i with Memcpy (Shm _, _) (Sendbuf, _) _ | Barrier => True | _ => False end.
Lemma copyin_copies N mc b ns : forall add, Forall copies_in (copyin_lines N mc b ns add).
Proof.
  induction ns as [|n ns IH]; intros add; [constructor|]. cbn [copyin_lines]. apply Forall_app. split; [|apply IH].
  destruct (_ || _); [constructor|]. cbv zeta. destruct (_ =? 0); repeat constructor.
Qed.
Lemma copyin_aliased {V} (op : V -> V -> V) l : Forall copies_in l -> forall (m m' : @memory V),
  (forall a, m' a = aliased m a) -> forall a, exec_list op l m' a = aliased (exec_list op (in_place_code l) m) a.
Proof.
  induction 1 as [|i l Hi Hl IH]; intros m m' E a; [apply E|]. cbn [in_place_code map exec_list fold_left]. apply IH. clear IH a. intros a.
  destruct i as [ | | | |d s n| ]; try (now destruct Hi); try (now apply E).
  destruct d as [[| |k] x]; try (now destruct Hi). destruct s as [[| |k'] y]; try (now destruct Hi).
  cbn [in_place_instr in_place fst snd exec_local]. unfold aliased in *. destruct a as [[| |k'] z]; cbn [fst snd].
  - unfold inside. cbn. rewrite E. reflexivity.
  - unfold inside. cbn. rewrite E. reflexivity.
  - destruct (inside (Shm k, x) n (Shm k', z)); rewrite E; reflexivity.
Qed.

(* ---------- allreduce ---------- *)
Section Allreduce.
  Context {V : Type} (op : V -> V -> V).
  Context (op_assoc : forall a b c, op a (op b c) = op (op a b) c) (op_comm : forall a b, op a b = op b a).
  Context (down mid up : list Z) (B : balanced down mid up) (count : nat).
  Local Notation ports := (down ++ mid ++ up).
  Local Notation N := (node_count (mid ++ up)).
  Local Notation alg := (generate_recursive false ports).
  Local Notation nb := (length ports + 2).
  Local Notation mc := (split_count count N).
  Local Notation size_of := (mmsizes mc N).
  Local Notation F := (fun _ n : nat => n mod N).
  Local Notation pre := (fun q : nat => copyin_reduce N mc (nth 0 (alg q) empty_block)).
  Local Notation prei := (fun q : nat => in_place_code (copyin_reduce N mc (nth 0 (alg q) empty_block))).
  Local Notation post := (fun q : nat => copyout_all mc (nth (nb - 1) (alg q) empty_block) (moffset mc N)).
  Local Notation LL := (L N alg nb size_of prei post).

  Lemma prei_quiet q : q < N -> forallb quiet (prei q) = true.
  Proof.
    intros _. unfold in_place_code. rewrite forallb_forall. intros i Hi. apply in_map_iff in Hi. destruct Hi as (j & <- & Hj).
    assert (H := copyin_quiet N mc (nth 0 (alg q) empty_block)). rewrite forallb_forall in H. apply H in Hj. now destruct j.
  Qed.
  Lemma posti_quiet q : q < N -> forallb quiet (post q) = true.
  Proof. intros _. apply copyout_quiet. Qed.
  Lemma ip_matched m : 1 <= m < nb -> well_matched N (fun q => nth m (alg q) empty_block).
  Proof. intros _. now apply generated_allreduce_matched. Qed.
  Lemma ip_ok : phases_ok N (nb - 1) LL.
  Proof.
    apply (whole_ok N alg nb mc); try lia.
    - apply ip_matched.
    - apply prei_quiet.
    - apply posti_quiet.
  Qed.
  Lemma ip_program q : q < N -> in_place_code (allreduce_program (alg q) count N q) = phased (nb - 1) LL q.
  Proof.
    intros Hq. destruct (ar_N down mid up B) as [Np _]. rewrite <- (whole_phased N alg nb mc); auto; try lia.
    - unfold allreduce_program, program, between. rewrite hd_first, (last_nth N alg nb); auto.
      + rewrite split_sum by lia. unfold in_place_code at 1. rewrite !map_app. f_equal. f_equal.
        * apply in_place_same, blocks_off.
        * apply in_place_same, copyout_off.
      + now apply generated_allreduce_same_length.
    - now apply generated_allreduce_same_length.
    - apply ip_matched.
    - apply prei_quiet.
    - apply posti_quiet.
  Qed.
  Lemma prei_aliased (m : nat -> @memory V) q a : aliased (exec_list op (prei q) (m q)) a = exec_list op (pre q) (aliased (m q)) a.
  Proof.
    symmetry. apply copyin_aliased; [|auto]. unfold copyin_reduce. do 2 (constructor; [exact I|]). apply copyin_copies.
  Qed.
  Lemma ip_lock m q : q < N -> forall j,
    (j < count -> exec_list op (LL (nb - 1) q) (memat op LL m (nb - 1) q) (Recvbuf, j) = total op (fun p => m p (Recvbuf, j)) N) /\ (count <= j -> exec_list op (LL (nb - 1) q) (memat op LL m (nb - 1) q) (Recvbuf, j) = m q (Recvbuf, j)).
  Proof.
    intros Hq. destruct (ar_N down mid up B) as [Np _].
    assert (SL := generated_allreduce_same_length down mid up B N).
    assert (Hb : 1 <= nb) by lia.
    assert (FN : forall q n, q < N -> F q n < N) by (intros; apply Nat.mod_upper_bound; lia).
    assert (LAY := ar_lay down mid up B).
    assert (IN : forall q n f, q < N -> n < num_lines (nth 0 (alg q) empty_block) -> input_line (nth 0 (alg q) empty_block) n = Some f -> off size_of (F q) (S n) <= moffset mc N).
    { intros q' n f Hq' Hn I. rewrite (ar_first down mid up B) in I. now apply rs_first_room with f. }
    rewrite (whole_end op N alg nb mc prei post m q Hq).
    set (m' := fun p => aliased (m p)).
    assert (D : forall i, delivered (nth (nb - 1) (alg q) empty_block) (fun f => f < N) (fun f => total op (fun k => vec mc m' i k f) N)
                            (execute op N alg nb (ini op N mc F pre m' i) q)).
    { intros i. rewrite <- (last_nth N alg nb SL q Hq). change (last (alg q) empty_block) with (last_block (alg q)). rewrite <- (SL q Hq).
      apply generated_allreduce; auto. intros t Ht. now apply (ini_placed op N alg nb mc F Hb ip_matched LAY FN IN). }
    destruct (post_a_out op N alg nb mc F Hb ip_matched LAY FN (fun j => total op (fun p => m p (Recvbuf, j)) N) q (exchanged op N alg nb mc prei post m q) Hq) as (A & C & _).
    - intros n i Hn O Hi. rewrite (whole_cells op N alg nb mc F Hb ip_matched LAY FN prei post prei_quiet posti_quiet m i (ini op N mc F pre m' i)); auto.
      + destruct (D i) as [D1 _]. destruct (D1 n (n mod N) Hn O) as [_ E]. rewrite E. apply total_cong; [lia|].
        intros k Hk. unfold vec. apply Nat.ltb_lt in Hi. now rewrite Hi.
      + intros q' n' Hq' Hn'. rewrite <- (ini_cells op N mc F FN pre m' i q' n' Hq' Hn'). unfold m'. rewrite <- prei_aliased. reflexivity.
      + rewrite size_of_eq by (apply FN with (q := q); auto). exact Hi.
    - destruct (D 0) as [_ D2]. exact D2.
    - assert (T := split_sum count N Np). intros j. split; intros Hj; [apply A; lia|]. rewrite C by lia.
      rewrite (whole_user op N alg nb mc Hb ip_matched prei post prei_quiet posti_quiet) by (auto; discriminate).
      transitivity (exec_list op (pre q) (aliased (m q)) (Recvbuf, j)); [rewrite <- prei_aliased; reflexivity|].
      rewrite (pre_r_user op N alg nb mc F Hb LAY FN m' q) by (auto; discriminate). reflexivity.
  Qed.
End Allreduce.

Lemma in_place_run : forall {V} (op : V -> V -> V) down mid up count (m : nat -> @memory V),
  (forall a b c, op a (op b c) = op (op a b) c) -> (forall a b, op a b = op b a) ->
  balanced down mid up ->
  let N := node_count (mid ++ up) in
  let prog := fun q => in_place_code (allreduce_program (generate_recursive false (down ++ mid ++ up) q) count N q) in
  never_stuck op N prog m /\ leaves_nothing op N prog m /\ computes op N prog m (fun q mm => forall j,
    (j < count -> mm (Recvbuf, j) = total op (fun p => m p (Recvbuf, j)) N) /\ (count <= j -> mm (Recvbuf, j) = m q (Recvbuf, j))).
Proof.
  intros V op down mid up count m A C B N prog.
  assert (OK := ip_ok down mid up B count).
  assert (PR : forall q, q < N -> prog q = phased _ _ q) by (intros q Hq; apply (ip_program down mid up B count q Hq)).
  split; [|split].
  - eapply once_progress; eauto.
  - eapply once_clean; eauto.
  - eapply once_result; eauto. intros q mm Hq E j. rewrite !E. now apply ip_lock.
Qed.
