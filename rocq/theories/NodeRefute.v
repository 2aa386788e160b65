(* Runs of programs generated from parameters that are not admissible. *)
From Verif Require Import Base NodeModel NodeSpec.
Local Open Scope nat_scope.

(* core c sends 1000 c + b + 1 in byte b *)
Definition witness_send (c : nat) (b : Z) : Z := (Z.of_nat c * 1000 + b + 1)%Z.

Section Play.
  Context (send : nat -> Z -> Z).
  (* one core goes as far as it can; the cores in turn *)
  Fixpoint alone (fuel : nat) (s : @nstate Z) (c : nat) : nstate :=
    match fuel with
    | O => s
    | S f => match nstep Z.add send s c with Some s' => alone f s' c | None => s end
    end.
  Fixpoint play (rounds n : nat) (s : @nstate Z) : nstate :=
    match rounds with
    | O => s
    | S r => play r n (fold_left (alone 1000) (seq 0 n) s)
    end.

  Lemma alone_reach n s0 fuel c : c < n -> forall s, nreach Z.add send n s0 s -> nreach Z.add send n s0 (alone fuel s c).
  Proof.
    intros Hc. induction fuel as [|f IH]; intros s R; cbn [alone]; auto.
    destruct (nstep Z.add send s c) eqn:E; auto. apply IH. econstructor; eauto.
  Qed.
  Lemma turn_reach n s0 l : Forall (fun c => c < n) l -> forall s, nreach Z.add send n s0 s ->
    nreach Z.add send n s0 (fold_left (alone 1000) l s).
  Proof.
    induction 1 as [|c l Hc Hl IH]; intros s R; cbn [fold_left]; auto. apply IH. now apply alone_reach.
  Qed.
  Lemma play_reach_from n s0 rounds : forall s, nreach Z.add send n s0 s -> nreach Z.add send n s0 (play rounds n s).
  Proof.
    induction rounds as [|r IH]; intros s R; cbn [play]; auto. apply IH. apply turn_reach; auto.
    apply Forall_forall. intros c Hc. apply in_seq in Hc. lia.
  Qed.
  Lemma play_reach n s0 rounds : nreach Z.add send n s0 (play rounds n s0).
  Proof. apply play_reach_from. constructor. Qed.
End Play.

Definition done {V} n (s : @nstate V) : bool := forallb (fun c => match rest s c with [] => true | _ => false end) (seq 0 n).
Lemma done_finished {V} n (s : @nstate V) : done n s = true <-> finished n s.
Proof.
  unfold done, finished. rewrite forallb_forall. split; intros H c Hc.
  - specialize (H c (proj2 (in_seq _ _ _) (conj (Nat.le_0_l c) Hc))). now destruct (rest s c).
  - apply in_seq in Hc. rewrite H; auto. lia.
Qed.
Lemma finished_spec {V} n (s : @nstate V) : done n s = true -> finished n s.
Proof. apply done_finished. Qed.
Definition stuck {V} (op : V -> V -> V) send n (s : @nstate V) : bool :=
  forallb (fun c => match nstep op send s c with None => true | _ => false end) (seq 0 n).
Lemma stuck_spec {V} (op : V -> V -> V) send n (s : @nstate V) : stuck op send n s = true ->
  forall c, c < n -> nstep op send s c = None.
Proof.
  unfold stuck. rewrite forallb_forall. intros H c Hc.
  specialize (H c (proj2 (in_seq _ _ _) (conj (Nat.le_0_l c) Hc))). now destruct (nstep op send s c).
Qed.

Definition zeros (_ : Z) : Z := 0%Z.
Definition par_uneven : node_par := NP 3 1 [2; 2] [8]%Z [0] false.
Definition par_large : node_par := NP 3 1 [1; 2; 2] [128]%Z [0] false.
Definition par_small : node_par := NP 3 1 [1; 2; 2] [8]%Z [0] false.
Definition par_few : node_par := NP 4 1 [1; 2] [8]%Z [0] false.

Lemma uneven_stuck : exists p s, n_cores p = 3 /\ n_factors p = [2; 2] /\
  nreach Z.add witness_send 3 (nstart (program p) 0 (fun _ => 0%Z)) s /\
  ~ finished 3 s /\ (forall c, c < 3 -> nstep Z.add witness_send s c = None).
Proof.
  exists par_uneven, (play witness_send 20 3 (nstart (program par_uneven) 0 zeros)).
  refine (conj eq_refl (conj eq_refl (conj (play_reach _ _ _ _) (conj _ _)))).
  - rewrite <- done_finished. vm_compute. discriminate.
  - apply stuck_spec. vm_compute. reflexivity.
Qed.

Lemma large_wrong : exists p s, n_cores p = 3 /\ n_factors p = [1; 2; 2] /\ n_counts p = [128]%Z /\
  nreach Z.add witness_send 3 (nstart (program p) 0 (fun _ => 0%Z)) s /\ finished 3 s /\
  mem s (cell p 0 64) <> reduction Z.add 0%Z witness_send 3 64.
Proof.
  exists par_large, (play witness_send 20 3 (nstart (program par_large) 0 zeros)).
  refine (conj eq_refl (conj eq_refl (conj eq_refl (conj (play_reach _ _ _ _) (conj _ _))))).
  - apply finished_spec. vm_compute. reflexivity.
  - vm_compute. discriminate.
Qed.

Lemma half_small_wrong : exists p s, n_cores p = 3 /\ n_factors p = [1; 2; 2] /\ n_counts p = [8]%Z /\
  nreach Z.add witness_send 3 (nstart (program_half p) 0 (fun _ => 0%Z)) s /\ finished 3 s /\
  mem s (cell p 0 0) <> reduction Z.add 0%Z witness_send 3 0.
Proof.
  exists par_small, (play witness_send 20 3 (nstart (program_half par_small) 0 zeros)).
  refine (conj eq_refl (conj eq_refl (conj eq_refl (conj (play_reach _ _ _ _) (conj _ _))))).
  - apply finished_spec. vm_compute. reflexivity.
  - vm_compute. discriminate.
Qed.

Lemma few_wrong : exists p s, n_cores p = 4 /\ n_factors p = [1; 2] /\
  nreach Z.add witness_send 4 (nstart (program p) 0 (fun _ => 0%Z)) s /\ finished 4 s /\
  mem s (cell p 0 0) <> reduction Z.add 0%Z witness_send 4 0.
Proof.
  exists par_few, (play witness_send 20 4 (nstart (program par_few) 0 zeros)).
  refine (conj eq_refl (conj eq_refl (conj (play_reach _ _ _ _) (conj _ _)))).
  - apply finished_spec. vm_compute. reflexivity.
  - vm_compute. discriminate.
Qed.
