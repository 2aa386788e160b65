(* Final code that does not do what it should: two nodes, five elements. *)
From Verif Require Import Base SchedModel SchedSpec RecursiveModel RecursiveSpec RawModel RawSpec RootModel RootSpec RootRefute
  FinalModel FinalSpec FinalRootModel.

Definition base40 (k : nat) : nat := 40 * k.
Notation ports2 := ([(-1)%Z] ++ [] ++ [1%Z]).
Notation two := (node_count ([] ++ [1%Z])).
Notation alg2 := (generate_recursive false ports2).
Lemma balanced2 : balanced [(-1)%Z] [] [1%Z].
Proof. repeat split; try (repeat constructor; fail); discriminate. Qed.
Ltac laid := split; [reflexivity|]; split; [intros k; unfold base40; lia|]; vm_compute; repeat (constructor; try lia; try exact I).

(* ---------- in place ---------- *)
Lemma laid_allreduce2 q : q < two -> laid_out base40 (allreduce_program (alg2 q) 5 two q).
Proof. intros H. destruct q as [|[|]]; [laid|laid|cbn in H; lia]. Qed.
Notation inplace2 := (fun q : nat => in_place_code (allreduce_final (alg2 q) base40 false 5 two q)).
Definition memi (q : nat) : @memory nat := fun _ => 1 + q.
Definition endi : @system nat := go Nat.add two 200 (start inplace2 memi).
Lemma endi_reached : reach Nat.add two (start inplace2 memi) endi.
Proof. apply go_reach. constructor. Qed.
Lemma endi_finished : finished endi 0.
Proof. unfold finished. vm_compute. auto. Qed.
(* the first element of node 1 is counted twice, that of node 0 is lost *)
Lemma endi_wrong : mem (procs endi 0) (Recvbuf, 0) = 4.
Proof. vm_compute. reflexivity. Qed.
Lemma in_place_wrong :
  ~ (forall down mid up count base alt (m : nat -> @memory nat), balanced down mid up ->
       let N := node_count (mid ++ up) in
       let alg := generate_recursive false (down ++ mid ++ up) in
       (forall q, q < N -> laid_out (base q) (allreduce_program (alg q) count N q)) ->
       computes Nat.add N (fun q => in_place_code (allreduce_final (alg q) (base q) alt count N q)) m
         (fun q mm => forall j, j < count -> mm (Recvbuf, j) = total Nat.add (fun p => m p (Recvbuf, j)) N)).
Proof.
  intros H. assert (G := H [(-1)%Z] [] [1%Z] 5 (fun _ => base40) false memi balanced2 laid_allreduce2 endi 0 endi_reached ltac:(cbn; lia) endi_finished 0 ltac:(lia)).
  rewrite endi_wrong in G. vm_compute in G. discriminate.
Qed.

(* ---------- reduce ---------- *)
Notation alg2b := (RootModel.backward two 0 alg2 (length ports2 + 2)).
Lemma laid_reduce2 q : q < two -> laid_out base40 (reduce_lines (alg2b q) 5 two 0 q).
Proof. intros H. destruct q as [|[|]]; [laid|laid|cbn in H; lia]. Qed.
Notation reduce2 := (fun q : nat => reduce_final (alg2b q) base40 false 5 two 0 q).
Definition endr : @system nat := go Nat.add two 200 (start reduce2 memi).
Lemma endr_reached : reach Nat.add two (start reduce2 memi) endr.
Proof. apply go_reach. constructor. Qed.
Lemma endr_finished : finished endr 1.
Proof. unfold finished. vm_compute. auto. Qed.
(* node 1 is not the root *)
Lemma endr_wrong : mem (procs endr 1) (Recvbuf, 3) = 3.
Proof. vm_compute. reflexivity. Qed.
Lemma reduce_final_wrong :
  ~ (forall down mid up root count base alt (m : nat -> @memory nat), balanced down mid up ->
       let N := node_count (mid ++ up) in
       let ports := down ++ mid ++ up in
       let alg := RootModel.backward N root (generate_recursive false ports) (length ports + 2) in
       root < N ->
       (forall q, q < N -> laid_out (base q) (reduce_lines (alg q) count N root q)) ->
       computes Nat.add N (fun q => reduce_final (alg q) (base q) alt count N root q) m (reduced_at Nat.add N root count m)).
Proof.
  intros H. assert (G := H [(-1)%Z] [] [1%Z] 0 5 (fun _ => base40) false memi balanced2 ltac:(cbn; lia) laid_reduce2 endr 1 endr_reached ltac:(cbn; lia) endr_finished).
  unfold reduced_at in G. destruct G as (G & _). assert (G3 := G 3). rewrite endr_wrong in G3. discriminate.
Qed.

(* ---------- the lines that are executed ---------- *)
Lemma executed_app n l r : executed n (l ++ r) = executed n l ++ executed n r.
Proof. apply filter_app. Qed.
Lemma executed_local n l : Forall (fun i => match i with Irecv _ _ _ | Isend _ _ _ => False | _ => True end) l -> executed n l = l.
Proof. induction 1 as [|i l Hi Hl IH]; [reflexivity|]. unfold executed in *. destruct i; try (now destruct Hi); cbn [filter]; now rewrite IH. Qed.
Section Lines.
  Context (size_of : nat -> nat) (N node : nat) (HN : 0 < N).
  Lemma from_lt o : from_node N node o < N.
  Proof. unfold from_node. apply Nat.mod_upper_bound. lia. Qed.
  Lemma to_lt o : to_node N node o < N.
  Proof. unfold to_node. apply Nat.mod_upper_bound. lia. Qed.
  Lemma receives_executed b os : forall c,
    executed N (fst (receives3 size_of N node b os c)) = fst (receives2 size_of N node b os c) /\
    snd (receives3 size_of N node b os c) = snd (receives2 size_of N node b os c).
  Proof.
    induction os as [|o os IH]; intros c; [split; reflexivity|]. cbn [receives3 receives2].
    set (a := kind_size _ _ _ _ true). set (s := kind_size _ _ _ _ false).
    destruct (IH (c + used a + used s)) as [E1 E2].
    destruct (receives3 _ _ _ _ _ _) as [l3 c3]. destruct (receives2 _ _ _ _ _ _) as [l2 c2]. cbn [fst snd] in *. split; [|exact E2].
    rewrite !executed_app, E1. rewrite app_assoc. f_equal.
    assert (G : forall q, (N + q <? N) = false) by (intros; apply Nat.ltb_ge; lia).
    assert (L := from_lt o). apply Nat.ltb_lt in L.
    destruct (a =? 0), (s =? 0); unfold executed; cbn [filter app]; rewrite ?L, ?G; reflexivity.
  Qed.
  Lemma pack_entries_local b q n c es : forall add adds,
    Forall (fun i => match i with Irecv _ _ _ | Isend _ _ _ => False | _ => True end) (fst (fst (pack_entries2 size_of node b q n c es add adds))).
  Proof.
    induction es as [|e es IH]; intros add adds; [constructor|]. cbn [pack_entries2].
    destruct (is_node q e && negb (q =? node)); [|destruct (struck q e && negb (q =? node))].
    - specialize (IH (add + line_size size_of b n) adds). destruct (pack_entries2 _ _ _ _ _ _ _ _ _) as [[l x] y]. cbn [fst] in *.
      apply Forall_app. split; [|exact IH]. destruct (_ =? 0); repeat constructor.
    - specialize (IH add (adds + line_size size_of b n)). destruct (pack_entries2 _ _ _ _ _ _ _ _ _) as [[l x] y]. cbn [fst] in *.
      apply Forall_app. split; [|exact IH]. destruct (_ =? 0); repeat constructor.
    - apply IH.
  Qed.
  Lemma pack_lines_local b q c ns : forall add adds,
    Forall (fun i => match i with Irecv _ _ _ | Isend _ _ _ => False | _ => True end) (fst (fst (pack_lines2 size_of node b q c ns add adds))).
  Proof.
    induction ns as [|n ns IH]; intros add adds; [constructor|]. cbn [pack_lines2].
    assert (E := pack_entries_local b q n c (sendto (lines b n)) add adds). destruct (pack_entries2 _ _ _ _ _ _ _ _ _) as [[l x] y].
    specialize (IH x y). destruct (pack_lines2 _ _ _ _ _ _ _ _) as [[l2 x2] y2]. cbn [fst] in *. apply Forall_app. now split.
  Qed.
  Lemma sends_executed b os : forall c, executed N (sends3 size_of N node b os c) = sends2 size_of N node b os c.
  Proof.
    induction os as [|o os IH]; intros c; [reflexivity|]. cbn [sends3 sends2].
    assert (E := pack_lines_local b (to_node N node o) c (seq 0 (num_lines b)) 0 0). destruct (pack_lines2 _ _ _ _ _ _ _ _) as [[l x] y]. cbn [fst] in E.
    rewrite !executed_app, (executed_local N l E), IH. f_equal.
    assert (G : forall q, (N + q <? N) = false) by (intros; apply Nat.ltb_ge; lia).
    assert (L := to_lt o). apply Nat.ltb_lt in L.
    destruct (x =? 0), (y =? 0); unfold executed; cbn [filter app]; rewrite ?L, ?G; reflexivity.
  Qed.
  Lemma unpacks_local b os : forall c, Forall (fun i => match i with Irecv _ _ _ | Isend _ _ _ => False | _ => True end) (unpacks2 size_of N node b os c).
  Proof.
    induction os as [|o os IH]; intros c; [constructor|]. cbn [unpacks2]. destruct (_ =? 0); [apply IH|].
    constructor; [|apply IH]. destruct (recvfrom _) as [|e r]; [exact I|]. destruct (is_node node e || struck node e); exact I.
  Qed.
  Lemma blocks_executed bs : forall first, executed N (blocks_code3 size_of N node bs first) = blocks_code2 size_of N node bs first.
  Proof.
    induction bs as [|b bs IH]; intros first; [reflexivity|]. cbn [blocks_code3 blocks_code2]. rewrite executed_app, IH. f_equal.
    rewrite executed_app. f_equal.
    - unfold post_code3, post_code2. destruct (receives_executed b (seq 0 N) 1) as [E1 E2].
      destruct (receives3 _ _ _ _ _ _) as [l3 c3]. destruct (receives2 _ _ _ _ _ _) as [l2 c2]. cbn [fst snd] in *. subst.
      rewrite !executed_app, sends_executed. destruct first; reflexivity.
    - apply executed_local. constructor; [exact I|]. unfold after_code2. constructor; [exact I|].
      apply Forall_app. split; [apply unpacks_local|]. constructor; [exact I|].
      apply Forall_app. split; apply Forall_forall; intros i Hi.
      + unfold reduces in Hi. apply in_flat_map in Hi. destruct Hi as (n & _ & Hi). apply in_flat_map in Hi. destruct Hi as (r & _ & Hi).
        destruct (_ =? 0); [destruct Hi|]. destruct Hi as [<-|[]]. exact I.
      + unfold copyreduces in Hi. apply in_flat_map in Hi. destruct Hi as (n & _ & Hi). destruct (_ =? 0); [destruct Hi|].
        destruct (copyreducefrom _) as [|r0 rs]; [destruct Hi|]. destruct Hi as [<-|Hi]; [exact I|]. apply in_map_iff in Hi. destruct Hi as (r & <- & _). exact I.
  Qed.
End Lines.
Lemma copyin_local N mc b ns : forall add, Forall (fun i => match i with Irecv _ _ _ | Isend _ _ _ => False | _ => True end) (copyin_lines N mc b ns add).
Proof.
  induction ns as [|n ns IH]; intros add; [constructor|]. cbn [copyin_lines]. apply Forall_app. split; [|apply IH].
  destruct (_ || _); [constructor|]. cbv zeta. destruct (_ =? 0); repeat constructor.
Qed.
Lemma copyout_local mc b count ns : forall add, Forall (fun i => match i with Irecv _ _ _ | Isend _ _ _ => False | _ => True end) (copyout_lines mc b count ns add).
Proof.
  induction ns as [|n ns IH]; intros add; [constructor|]. cbn [copyout_lines]. apply Forall_app. split; [|apply IH].
  destruct (existsb _ _); [|constructor]. destruct (overlapp _ _ _ _) as [size a]. destruct (_ =? 0); repeat constructor.
Qed.
Lemma reduce_lines_executed alg count num_nodes root node : 0 < num_nodes ->
  executed num_nodes (reduce_lines alg count num_nodes root node) = reduce_program alg count num_nodes root node.
Proof.
  intros HN. unfold reduce_lines, reduce_program, between2. rewrite !executed_app, (blocks_executed _ _ _ HN). f_equal; [|f_equal].
  - apply executed_local. unfold copyin_reduce. repeat (constructor; [exact I|]). apply copyin_local.
  - destruct (node =? root); [|reflexivity]. apply executed_local. apply copyout_local.
Qed.
