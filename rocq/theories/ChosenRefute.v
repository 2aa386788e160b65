(* Executions of the code for ports that the library chooses itself and that do
   not do what they should. *)
From Verif Require Import Base FactorsModel SchedModel SchedSpec RecursiveModel RecursiveSpec CyclicModel CycRedModel RawModel RawSpec
  RootModel RootSpec RootRefute BcastModel BcastSpec FinalModel FinalSpec ChoiceModel ChosenModel Freeze.
Local Ltac Zify.zify_post_hook ::= idtac.

(* ---------- executions of programs with the same code ---------- *)
Section Same.
  Context {V : Type} (op : V -> V -> V) (N : nat).
  Definition alike_ (s t : @system V) : Prop := (forall p, procs s p = procs t p) /\ forall p q, chan s p q = chan t p q.
  Lemma alike_proc s t p x : alike_ s t -> alike_ (set_proc s p x) (set_proc t p x).
  Proof. intros [A B]. split; [|exact B]. intros q. cbn. unfold upd. destruct (Nat.eq_dec _ _); [reflexivity|apply A]. Qed.
  Lemma alike_chan s t p q c : alike_ s t -> alike_ (set_chan s p q c) (set_chan t p q c).
  Proof.
    intros [A B]. split; [exact A|]. intros a b. cbn. unfold upd. destruct (Nat.eq_dec _ _); [|apply B].
    destruct (Nat.eq_dec _ _); [reflexivity|apply B].
  Qed.
  Definition both (x y : option (@system V)) : Prop :=
    match x, y with Some s, Some t => alike_ s t | None, None => True | _, _ => False end.
  Lemma next_alike s t p : alike_ s t -> both (next_of op N s p) (next_of op N t p).
  Proof.
    intros H. unfold next_of. rewrite (proj1 H p). cbv zeta.
    destruct (match code (procs t p) with [] => None | i :: rest => exec_instr op i rest (procs t p) end) as [y|].
    - now apply alike_proc.
    - destruct (sending (procs t p)) as [|r l].
      + destruct (receiving (procs t p)) as [|r l]; [exact I|]. rewrite (proj2 H).
        destruct (chan t (peer r) p) as [|v vs]; [exact I|]. destruct (_ && _); [|exact I]. now apply alike_chan, alike_proc.
      + destruct (peer r <? N); [|exact I]. rewrite (proj2 H). now apply alike_chan, alike_proc.
  Qed.
  Lemma any_alike s t ps : alike_ s t -> both (next_any op N s ps) (next_any op N t ps).
  Proof.
    intros H. induction ps as [|p ps IH]; [exact I|]. cbn [next_any]. assert (G := next_alike s t p H).
    destruct (next_of op N s p), (next_of op N t p); try destruct G; [now split|exact IH].
  Qed.
  Lemma go_alike fuel : forall s t, alike_ s t -> alike_ (go op N fuel s) (go op N fuel t).
  Proof.
    induction fuel as [|f IH]; intros s t H; [exact H|]. cbn [go]. assert (G := any_alike s t (seq 0 N) H).
    destruct (next_any op N s _), (next_any op N t _); try destruct G; [apply IH; now split|exact H].
  Qed.
  Lemma start_alike prog fast m : (forall q, prog q = fast q) -> alike_ (start prog m) (@start V fast m).
  Proof. intros H. split; [|reflexivity]. intros p. cbn. now rewrite H. Qed.

  (* a wrong result of the fast program *)
  Lemma wrong_result prog fast m fuel t q (result : nat -> @memory V -> Prop) : (forall q, prog q = fast q) -> q < N ->
    t = go op N fuel (start fast m) -> finished t q -> ~ result q (mem (procs t q)) -> ~ computes op N prog m result.
  Proof.
    intros H Hq -> F W C. assert (A := go_alike fuel _ _ (start_alike prog fast m H)).
    specialize (C (go op N fuel (start prog m)) q (go_reach op N fuel _ _ (Reach0 _ _ _)) Hq).
    unfold finished in *. rewrite (proj1 A q) in C. now apply W, C.
  Qed.
End Same.
(* programs in a table *)
Definition tabled (N : nat) (prog : nat -> list instr) : nat -> list instr :=
  let t := map prog (seq 0 N) in fun q => match nth_error t q with Some l => l | None => prog q end.
Lemma tabled_eq N prog q : tabled N prog q = prog q.
Proof.
  unfold tabled. destruct (nth_error _ q) as [l|] eqn:E; [|reflexivity].
  rewrite nth_error_map in E. destruct (nth_error (seq 0 N) q) as [x|] eqn:X; [|discriminate]. cbn in E. injection E as <-.
  assert (L : q < length (seq 0 N)) by (apply nth_error_Some; congruence). rewrite seq_length in L.
  rewrite (nth_error_nth' (seq 0 N) 0), seq_nth in X by (rewrite ?seq_length; exact L). now injection X as <-.
Qed.

(* costs that favour one list *)
Definition prefer (g f : list Z) : Z := if list_eq_dec Z.eq_dec f g then 0%Z else 1%Z.
Lemma prefer_cheap g f : (prefer g f < 2)%Z.
Proof. unfold prefer. destruct (list_eq_dec _ _ _); lia. Qed.
Definition ones (q : nat) : @memory nat := fun a => match fst a with Sendbuf => 1 | _ => 0 end.

(* ---------- reduce, 7 nodes, ports 1 1 1 ---------- *)
Definition sched7 : nat -> list block := cyclic_reduce 7 [] [1; 1; 1].
Definition fast7 : nat -> list block := fz_all 7 (fz_reduce 7 [] [1; 1; 1]).
Lemma fast7_peq q : Forall2 peq (fast7 q) (sched7 q).
Proof. eapply Forall2_peq_trans; [apply fz_all_peq|apply reduce_peq]. Qed.
Definition reduce7 (q : nat) : list instr := reduce_program (adapted_to_root 7 0 sched7 q) 7 7 0 q.
Definition fast_reduce7 : nat -> list instr :=
  let alg := fast7 in tabled 7 (fun q => reduce_program (map freeze (RootModel.backward 7 0 alg 8 q)) 7 7 0 q).
Lemma sched7_length : length (sched7 0) = 8.
Proof. reflexivity. Qed.
Lemma reduce7_fast q : reduce7 q = fast_reduce7 q.
Proof.
  unfold reduce7, fast_reduce7. rewrite tabled_eq. unfold adapted_to_root. rewrite sched7_length. symmetry. apply reduce_program_peq.
  eapply Forall2_peq_trans; [apply freeze_all|]. apply backward_peq. exact fast7_peq.
Qed.
Lemma choose7 : choose (prefer [2; 2; 2]%Z) 2 false 7 = Some ([1; 1; 1], [7; 7; -7])%Z.
Proof. vm_compute. reflexivity. Qed.
Lemma choose7_gather : choose (prefer [2; 2; 2]%Z) 2 true 7 = Some ([1; 1; 1], [7; 7; -7])%Z.
Proof. vm_compute. reflexivity. Qed.
Lemma chosen_reduce7 : chosen_reduce None (prefer [2; 2; 2]%Z) 2 7 0 7 = Some reduce7.
Proof.
  unfold chosen_reduce, choose_allreduce. change (Z.of_nat 7) with 7%Z. rewrite choose7.
  replace (not_recursive None 7 [1; 1; 1]%Z) with true by reflexivity. reflexivity.
Qed.
Definition end_r : @system nat := go Nat.add 7 3000 (start fast_reduce7 ones).
Lemma end_r_finished : finished end_r 0.
Proof. unfold finished. vm_compute. reflexivity. Qed.
(* instead of 7 *)
Lemma end_r_wrong : mem (procs end_r 0) (Recvbuf, 0) = 4.
Proof. vm_compute. reflexivity. Qed.
Lemma end_r_eq : end_r = go Nat.add 7 3000 (start fast_reduce7 ones).
Proof. unfold end_r. reflexivity. Qed.
Lemma reduce7_wrong : ~ computes Nat.add 7 reduce7 ones (reduced_at Nat.add 7 0 7 ones).
Proof.
  refine (wrong_result Nat.add 7 reduce7 fast_reduce7 ones 3000 end_r 0 _ reduce7_fast _ end_r_eq end_r_finished _); [lia|].
  intros [H _]. specialize (H 0 ltac:(lia)). rewrite end_r_wrong in H. discriminate.
Qed.

(* ---------- bcast, 7 nodes, ports 1 1 1 ---------- *)
Definition vector (q : nat) : @memory nat := fun a => match fst a with Recvbuf => if q =? 0 then S (snd a) else 0 | _ => 0 end.
Definition bcast7 (q : nat) : list instr := bcast_program (adapted_from_root 7 0 sched7 q) 7 7 0 q.
Definition fast_bcast7 : nat -> list instr :=
  let alg := fast7 in tabled 7 (fun q => bcast_program (map freeze (BcastModel.forward 7 0 alg 8 q)) 7 7 0 q).
Lemma bcast7_fast q : bcast7 q = fast_bcast7 q.
Proof.
  unfold bcast7, fast_bcast7. rewrite tabled_eq. unfold adapted_from_root. rewrite sched7_length. symmetry. apply bcast_program_peq.
  eapply Forall2_peq_trans; [apply freeze_all|]. apply forward_peq. exact fast7_peq.
Qed.

Lemma choose_bcast7 : chosen_bcast None (prefer [2; 2; 2]%Z) 2 7 0 7 = Some bcast7.
Proof.
  unfold chosen_bcast, choose_bcast. change (Z.of_nat 7) with 7%Z. rewrite choose7_gather.
  replace (not_recursive None 7 [1; 1; 1]%Z) with true by reflexivity. reflexivity.
Qed.
Definition end_b : @system nat := go Nat.add 7 3000 (start fast_bcast7 vector).
Lemma end_b_finished : finished end_b 4.
Proof. unfold finished. vm_compute. reflexivity. Qed.
(* node 4 does not get the vector *)
Lemma end_b_wrong : mem (procs end_b 4) (Recvbuf, 0) = 0.
Proof. vm_compute. reflexivity. Qed.
Lemma end_b_eq : end_b = go Nat.add 7 3000 (start fast_bcast7 vector).
Proof. unfold end_b. reflexivity. Qed.
Lemma bcast7_wrong : ~ computes Nat.add 7 bcast7 vector (broadcast 0 7 vector).
Proof.
  refine (wrong_result Nat.add 7 bcast7 fast_bcast7 vector 3000 end_b 4 _ bcast7_fast _ end_b_eq end_b_finished _); [lia|].
  intros [H _]. specialize (H 0 ltac:(lia)). rewrite end_b_wrong in H. discriminate.
Qed.

(* ---------- gather, 7 nodes, ports 1 1 1 ---------- *)
Lemma choose_gather7 : chosen_gather None (prefer [2; 2; 2]%Z) 2 7 0 (fun _ => 1) = Some gather7.
Proof.
  unfold chosen_gather, choose_allgather. change (Z.of_nat 7) with 7%Z. rewrite choose7_gather.
  replace (not_recursive None 7 [1; 1; 1]%Z) with true by reflexivity. reflexivity.
Qed.
Lemma gather7_wrong : ~ computes Nat.add 7 gather7 mem7 (gathered_at 7 0 (fun _ => 1) mem7).
Proof.
  intros H. assert (G := H end7 0 end7_reached ltac:(lia) end7_finished). destruct G as (_ & G).
  specialize (G 6 0 ltac:(lia) ltac:(lia)). change (first_of (fun _ => 1) 6 + 0) with 6 in G. rewrite end7_wrong in G. discriminate.
Qed.

(* ---------- allreduce behind all passes, 9 nodes, ports -1 1 1 1 1 ---------- *)
Definition sched9 : nat -> list block := cyclic_reduce 9 [1] [1; 1; 1; 1].
Definition fast9 : nat -> list block := fz_all 9 (fz_reduce 9 [1] [1; 1; 1; 1]).
Lemma fast9_peq q : Forall2 peq (fast9 q) (sched9 q).
Proof. eapply Forall2_peq_trans; [apply fz_all_peq|apply reduce_peq]. Qed.
Definition base32 (k : nat) : nat := 32 * k.
Definition raw9 (q : nat) : list instr := allreduce_program (sched9 q) 4 9 q.
Definition allreduce9 (q : nat) : list instr := optimised base32 false (raw9 q).
Definition fast_raw9 : nat -> list instr := let alg := fast9 in tabled 9 (fun q => allreduce_program (alg q) 4 9 q).
Definition fast_allreduce9 : nat -> list instr :=
  let r := fast_raw9 in tabled 9 (fun q => optimised base32 false (r q)).
Lemma raw9_fast q : raw9 q = fast_raw9 q.
Proof. unfold raw9, fast_raw9. rewrite tabled_eq. symmetry. apply allreduce_peq, fast9_peq. Qed.
Lemma allreduce9_fast q : allreduce9 q = fast_allreduce9 q.
Proof. unfold allreduce9, fast_allreduce9. now rewrite tabled_eq, raw9_fast. Qed.
Lemma choose9 : choose (prefer [-2; 2; 2; 2; 2]%Z) 2 false 9 = Some ([-1; 1; 1; 1; 1], [9; 9; 9; 9; -9])%Z.
Proof. vm_compute. reflexivity. Qed.
Lemma chosen_allreduce9 : chosen_allreduce_final None (prefer [-2; 2; 2; 2; 2]%Z) 2 (fun _ => base32) false 9 4 = Some allreduce9.
Proof.
  unfold chosen_allreduce_final, takes_recursive, choose_allreduce. change (Z.of_nat 9) with 9%Z. rewrite choose9.
  replace (not_recursive None 9 [-1; 1; 1; 1; 1]%Z) with true by reflexivity. reflexivity.
Qed.
Lemma chosen_sched9 : choose_allreduce None (prefer [-2; 2; 2; 2; 2]%Z) 2 9 = Some sched9.
Proof.
  unfold choose_allreduce. change (Z.of_nat 9) with 9%Z. rewrite choose9.
  replace (not_recursive None 9 [-1; 1; 1; 1; 1]%Z) with true by reflexivity. reflexivity.
Qed.
(* base32 has room for the code *)
Definition roomy (i : instr) : bool :=
  let ok l n := match fst l with Shm _ => snd l + n <=? 32 | _ => true end in
  match i with
  | Irecv l n _ | Isend l n _ => ok l n
  | Memcpy d s n | Reduce_ d s n => ok d n && ok s n
  | _ => true
  end.
Lemma roomy_fits i : roomy i = true -> fits_in base32 i.
Proof.
  assert (G : forall l n, match fst l with Shm _ => snd l + n <=? 32 | _ => true end = true -> room_for base32 l n).
  { intros [[| |k] o] n H; try exact I. unfold room_for, base32. cbn [fst snd] in *. apply Nat.leb_le in H. lia. }
  destruct i; cbn; intros H; try exact I; try (now apply G); apply andb_true_iff in H; destruct H; split; now apply G.
Qed.
Definition all_roomy : bool := forallb (fun q => forallb roomy (fast_raw9 q)) (seq 0 9).
Lemma all_roomy_true : all_roomy = true.
Proof. vm_compute. reflexivity. Qed.
Lemma raw9_laid q : q < 9 -> laid_out base32 (raw9 q).
Proof.
  intros H. split; [reflexivity|]. split; [intros k; unfold base32; lia|]. rewrite raw9_fast. apply Forall_forall. intros i Hi. apply roomy_fits.
  assert (A := all_roomy_true). unfold all_roomy in A. rewrite forallb_forall in A. specialize (A q ltac:(apply in_seq; lia)).
  rewrite forallb_forall in A. now apply A.
Qed.
(* only node 5 contributes something to element 0 *)
Definition one5 (q : nat) : @memory nat := fun a => match fst a with Sendbuf => if (q =? 5) && (snd a =? 0) then 1 else 0 | _ => 0 end.
Definition end_a : @system nat := go Nat.add 9 3000 (start fast_allreduce9 one5).
Lemma end_a_finished : finished end_a 2.
Proof. unfold finished. vm_compute. reflexivity. Qed.
Lemma end_a_wrong : mem (procs end_a 2) (Recvbuf, 0) = 0.
Proof. vm_compute. reflexivity. Qed.
Lemma end_a_eq : end_a = go Nat.add 9 3000 (start fast_allreduce9 one5).
Proof. unfold end_a. reflexivity. Qed.
Lemma total_a : total Nat.add (fun p => one5 p (Sendbuf, 0)) 9 = 1.
Proof. reflexivity. Qed.
Lemma allreduce9_wrong : ~ computes Nat.add 9 allreduce9 one5
  (fun q mm => receives_only 4 (one5 q) mm (fun j => total Nat.add (fun p => one5 p (Sendbuf, j)) 9)).
Proof.
  refine (wrong_result Nat.add 9 allreduce9 fast_allreduce9 one5 3000 end_a 2 _ allreduce9_fast _ end_a_eq end_a_finished _); [lia|].
  intros [H _]. specialize (H 0 ltac:(lia)). rewrite end_a_wrong, total_a in H. discriminate.
Qed.
