(* Gather with the cyclic schedule: executing the generated code for seven nodes. *)
From Verif Require Import Base SchedModel SchedSpec RecursiveModel RecursiveSpec CyclicModel CyclicSpec RawModel RawSpec RootModel RootSpec.

Section Execute.
  Context {V : Type} (op : V -> V -> V) (N : nat).

  (* One step of some process, preferably p. *)
  Definition next_of (s : @system V) (p : nat) : option system :=
    let x := procs s p in
    match
      match code x with
      | i :: rest => exec_instr op i rest x
      | [] => None
      end
    with
    | Some y => Some (set_proc s p y)
    | None =>
      match sending x with
      | r :: l2 =>
        if peer r <? N then
          Some (set_chan (set_proc s p (Process (code x) (mem x) l2 (receiving x))) p (peer r)
                         (chan s p (peer r) ++ [read_mem (mem x) (place r) (len r)]))
        else None
      | [] =>
        match receiving x with
        | r :: l2 =>
          match chan s (peer r) p with
          | v :: vs =>
            if (peer r <? N) && (length v <=? len r) then
              Some (set_chan (set_proc s p (Process (code x) (write_mem (mem x) (place r) v) (sending x) l2)) (peer r) p vs)
            else None
          | [] => None
          end
        | [] => None
        end
      end
    end.
  Lemma next_step s p t : p < N -> next_of s p = Some t -> step op N s t.
  Proof.
    intros Hp. unfold next_of.
    destruct (match code (procs s p) with [] => None | i :: rest => exec_instr op i rest (procs s p) end) eqn:E.
    - intros H. inversion H; subst. destruct (code (procs s p)) as [|i rest] eqn:C; [discriminate|].
      exact (Exec op N s p i rest _ Hp C E).
    - clear E. destruct (sending (procs s p)) as [|r l2] eqn:S.
      + destruct (receiving (procs s p)) as [|r l2] eqn:R; [discriminate|].
        destruct (chan s (peer r) p) as [|v vs] eqn:C; [discriminate|].
        destruct (peer r <? N) eqn:B1; cbn [andb]; [|discriminate].
        destruct (length v <=? len r) eqn:B2; [|discriminate].
        apply Nat.ltb_lt in B1. apply Nat.leb_le in B2. intros H. inversion H; subst.
        rewrite <- S. exact (Arrive op N s (peer r) p [] r l2 v vs B1 Hp R eq_refl (fun x => x) C B2).
      + destruct (peer r <? N) eqn:B1; [|discriminate]. apply Nat.ltb_lt in B1.
        intros H. inversion H; subst. exact (Depart op N s p (peer r) [] r l2 Hp B1 S eq_refl (fun x => x)).
  Qed.

  Fixpoint next_any (s : @system V) (ps : list nat) : option system :=
    match ps with
    | [] => None
    | p :: r => match next_of s p with Some t => Some t | None => next_any s r end
    end.
  Lemma next_any_step s ps t : (forall p, In p ps -> p < N) -> next_any s ps = Some t -> step op N s t.
  Proof.
    induction ps as [|p r IH]; intros H E; [discriminate|]. cbn in E.
    destruct (next_of s p) as [u|] eqn:F.
    - inversion E; subst. exact (next_step s p t (H p (or_introl eq_refl)) F).
    - apply IH; [|exact E]. intros q Hq. apply H. now right.
  Qed.
  Fixpoint go (fuel : nat) (s : @system V) : @system V :=
    match fuel with
    | O => s
    | S f => match next_any s (seq 0 N) with Some t => go f t | None => s end
    end.
  Lemma go_reach fuel : forall s0 s, reach op N s0 s -> reach op N s0 (go fuel s).
  Proof.
    induction fuel as [|f IH]; intros s0 s H; [exact H|]. cbn [go].
    destruct (next_any s (seq 0 N)) as [t|] eqn:E; [|exact H].
    apply IH. apply ReachS with s; [exact H|].
    apply (next_any_step s (seq 0 N)); [|exact E]. intros p Hp. apply in_seq in Hp. lia.
  Qed.
End Execute.

(* seven nodes, every node contributes its own number *)
Definition gather7 (q : nat) : list instr :=
  gather_program (backward 7 0 (cyclic_allgather 7 [1; 1; 1]) 5 q) (fun _ => 1) 7 0 q.
Definition mem7 (q : nat) : @memory nat := fun a => match fst a with Sendbuf => q | _ => 99 end.
Definition end7 : @system nat := go Nat.add 7 1000 (start gather7 mem7).

Lemma end7_reached : reach Nat.add 7 (start gather7 mem7) end7.
Proof. apply go_reach. constructor. Qed.
Lemma end7_finished : finished end7 0.
Proof. unfold finished. vm_compute. auto. Qed.
Lemma end7_wrong : mem (procs end7 0) (Recvbuf, 6) = 99.
Proof. vm_compute. reflexivity. Qed.

Lemma minimal7 : minimal 7 [1; 1; 1].
Proof. split; [repeat constructor|]. right. exists [1; 1], 1. split; [reflexivity|]. cbn. lia. Qed.

Lemma cyclic_gather_wrong :
  ~ (forall N ports root counts (m : nat -> @memory nat), minimal N ports -> root < N ->
       computes Nat.add N (fun q => gather_program (backward N root (cyclic_allgather N ports) (length ports + 2) q) counts N root q) m
         (gathered_at N root counts m)).
Proof.
  intros H. assert (H7 := H 7 [1; 1; 1] 0 (fun _ => 1) mem7 minimal7 (Nat.lt_0_succ 6) end7 0 end7_reached (Nat.lt_0_succ 6) end7_finished).
  unfold gathered_at in H7. cbn [Nat.eqb] in H7. destruct H7 as (_ & G).
  assert (G6 := G 6 0 ltac:(lia) ltac:(lia)). change (first_of (fun _ => 1) 6 + 0) with 6 in G6. rewrite end7_wrong in G6. discriminate.
Qed.

(* two nodes of two cores, root is rank 1, which is on node 0 *)
Definition ranked (q : nat) : list instr := reduce_by_rank (generate_recursive false [(-1)%Z; 1%Z]) 4 2 2 2 1 q.
Definition mem2 (q : nat) : @memory nat := fun a => match fst a with Sendbuf => 1 | _ => 99 end.
Definition end2 : @system nat := go Nat.add 2 200 (start ranked mem2).
Lemma end2_reached : reach Nat.add 2 (start ranked mem2) end2.
Proof. apply go_reach. constructor. Qed.
Lemma end2_finished : finished end2 0.
Proof. unfold finished. vm_compute. auto. Qed.
Lemma end2_wrong : mem (procs end2 0) (Recvbuf, 1) <> 2.
Proof. vm_compute. discriminate. Qed.

Lemma reduce_by_rank_wrong :
  ~ (forall down mid up rows root count (m : nat -> @memory nat), balanced down mid up -> 0 < rows ->
       let N := node_count (mid ++ up) in
       let ports := down ++ mid ++ up in
       root < N * rows ->
       computes Nat.add N (fun q => reduce_by_rank (generate_recursive false ports) (length ports + 2) count N rows root q) m
         (reduced_at Nat.add N (root / rows) count m)).
Proof.
  intros H.
  assert (B : balanced [(-1)%Z] [] [1%Z]) by (repeat split; try (repeat constructor; fail); discriminate).
  assert (H2 := H [(-1)%Z] [] [1%Z] 2 1 2 mem2 B ltac:(lia) ltac:(cbn; lia) end2 0 end2_reached ltac:(cbn; lia) end2_finished).
  unfold reduced_at in H2. destruct H2 as (G & _). assert (G1 := G 1 ltac:(lia)). now apply end2_wrong.
Qed.
