(* What a correct schedule does, stated on line contents only. *)
From Verif Require Import Base SchedModel.

(* The user's data of one node, fragment f = inp f, has been placed. *)
Definition placed {V} (b : block) (inp : nat -> V) (mem : nat -> V) : Prop :=
  forall n f, n < num_lines b -> input_line b n = Some f -> mem n = inp f.

(* The user gets exactly the fragments in [wanted], with the values [out]. *)
Definition delivered {V} (b : block) (wanted : nat -> Prop) (out : nat -> V) (mem : nat -> V) : Prop :=
  (forall n f, n < num_lines b -> output_line b n = Some f -> wanted f /\ mem n = out f) /\
  (forall f, wanted f -> exists n, n < num_lines b /\ output_line b n = Some f).

(* f 0 op f 1 op ... op f (n-1), n > 0, combined from the left *)
Definition total {V} (op : V -> V -> V) (f : nat -> V) (n : nat) : V :=
  fold_left (fun a i => op a (f i)) (seq 1 (n - 1)) (f 0).

(* The schedules of all nodes have the same number of blocks. *)
Definition same_length (N : nat) (alg : nat -> list block) (count : nat) : Prop :=
  forall t, t < N -> length (alg t) = count.

(* Execute the schedule [alg] of [count] blocks on [N] nodes from [st]. *)
Definition execute {V} (op : V -> V -> V) (N : nat) (alg : nat -> list block) (count : nat)
  (st : nat -> nat -> V) : nat -> nat -> V :=
  run op N (stages_of alg count) st.
Definition first_block (l : list block) : block := nth 0 l empty_block.
Definition last_block (l : list block) : block := last l empty_block.

(* Sends and receives of a stage fit together: what p packs for q is, in
   number, order and fragment sizes, what q expects from p; the receiving lines
   are adjacent (the message is unpacked by one copy); partners exist; and
   reductions combine lines of the block holding the same fragment. *)
Definition well_matched (N : nat) (blk : nat -> block) : Prop :=
  (forall p q, p < N -> q < N -> p <> q ->
     map (fun n => frac (lines (blk p) n)) (sent_lines blk p q) =
     map (fun n => frac (lines (blk q) n)) (recv_lines blk q p) /\
     exists a, recv_lines blk q p = seq a (length (recv_lines blk q p))) /\
  (forall p n, p < N -> n < num_lines (blk p) ->
     Forall (fun e => (fst e = -1 \/ 0 <= fst e < Z.of_nat N)%Z /\ fst e <> Z.of_nat p)
            (sendto (lines (blk p) n) ++ recvfrom (lines (blk p) n)) /\
     Forall (fun r => r < num_lines (blk p) /\ frac (lines (blk p) r) = frac (lines (blk p) n))
            (reducefrom (lines (blk p) n) ++ copyreducefrom (lines (blk p) n))).
