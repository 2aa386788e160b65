(* What the code for several sockets per node is required to do. *)
From Verif Require Import Base SchedModel SchedSpec RawModel SocketModel.
Local Open Scope nat_scope.

Definition is_node_barrier (l : sline) : bool := match l with NodeBarrier => true | _ => false end.
Definition node_barriers (ls : list sline) : nat := length (filter is_node_barrier ls).
Definition is_waitall (i : instr) : bool := match i with Waitall => true | _ => false end.
Definition waitalls (ls : list instr) : nat := length (filter is_waitall ls).
Definition is_message (i : instr) : bool := match i with Irecv _ _ _ | Isend _ _ _ => true | _ => false end.

(* After the last message there is a waitall. *)
Fixpoint awaited (open : bool) (ls : list instr) : bool :=
  match ls with
  | [] => negb open
  | Waitall :: r => awaited false r
  | i :: r => awaited (open || is_message i) r
  end.

(* A copy from the memory of another socket. *)
Definition from_other (l : sline) : bool :=
  match l with Own (Memcpy _ (Shm (Datatypes.S _), _) _) => true | _ => false end.

(* The lines of the code that are there before and after: all but copies, barriers and the
   messages that stay at the node. *)
Definition steady (i : instr) : bool :=
  match i with Barrier | Memcpy _ _ _ | Irecv _ _ _ | Isend _ _ _ => false | _ => true end.
Definition steady_lines (ls : list sline) : list instr :=
  flat_map (fun l => match l with Own i => if steady i then [i] else [] | NodeBarrier => [] end) ls.

(* Whatever the order in which the processes go on: when all have finished, everybody has the
   sum in the receive buffer. *)
Definition sums_up {V} (op : V -> V -> V) (S : nat) (code : nat -> list sline) (count : nat) : Prop :=
  forall m s, sreach op S (sstart code m) s -> (forall p, p < S -> scode s p = []) ->
  forall p j, p < S -> j < count -> smem s p (Recvbuf, j) = total op (fun q => m q (Sendbuf, j)) S.

(* What process p makes of its memory if the others leave theirs alone. *)
Definition alone {V} (op : V -> V -> V) (S p : nat) (ls : list sline) (m : nat -> @memory V) : @memory V :=
  fold_left (fun m l => match l with Own i => exec_line op S i p m | NodeBarrier => m end) ls m p.

(* ---------- phases between node barriers ---------- *)
Fixpoint phases (ls : list sline) : list (list instr) :=
  match ls with
  | [] => [[]]
  | NodeBarrier :: r => [] :: phases r
  | Own i :: r => match phases r with x :: y => (i :: x) :: y | [] => [[i]] end
  end.
Definition phase (b : nat) (ls : list sline) : list instr := nth b (phases ls) [].

(* What line i reads and writes. *)
Definition source (i : instr) : option (loc * nat) := match i with Memcpy _ s n | Reduce_ _ s n => Some (s, n) | _ => None end.
Definition target (i : instr) : option (loc * nat) := match i with Memcpy d _ n | Reduce_ d _ n => Some (d, n) | _ => None end.
Definition reads_at (S p : nat) (i : instr) (q : nat) (a : loc) : Prop :=
  match source i with
  | Some ((Shm (Datatypes.S k), o), n) => owner S p (Datatypes.S k) = q /\ inside (Shm 0, o) n a = true
  | _ => False
  end.
Definition writes_at (i : instr) (a : loc) : Prop :=
  match target i with Some (d, n) => inside d n a = true | None => False end.

(* What one process reads in the memory of another, this one does not write in the
   same phase. *)
Definition race_free (S : nat) (code : nat -> list sline) : Prop :=
  forall p q b i j a, p < S -> q < S -> p <> q ->
  In i (phase b (code p)) -> In j (phase b (code q)) -> reads_at S p i q a -> ~ writes_at j a.

Section Phases.
  Context {V : Type} (op : V -> V -> V) (S : nat) (code : nat -> list sline) (m : nat -> @memory V).
  (* Process p executes some lines while the others have the memories M. *)
  Definition lonely (M : nat -> @memory V) (p : nat) (is : list instr) (mm : @memory V) : @memory V :=
    fold_left (fun mm i => exec_line op S i p (upd Nat.eq_dec M p mm) p) is mm.
  (* The memories before phase b: all do the phases before, each with the memories the
     others had at the beginning of the phase. *)
  Fixpoint before_phase (b : nat) : nat -> @memory V :=
    match b with
    | O => m
    | Datatypes.S c => fun p => lonely (before_phase c) p (phase c (code p)) (before_phase c p)
    end.
End Phases.

Definition no_messages (code : list sline) : Prop := forall i, In (Own i) code -> is_message i = false.
(* All have finished or one can go on. *)
Definition goes_on {V} (op : V -> V -> V) (S : nat) (code : nat -> list sline) (m : nat -> @memory V) : Prop :=
  forall s, sreach op S (sstart code m) s -> (forall p, p < S -> scode s p = []) \/ exists p t, p < S /\ sstep op S s p = Some t.
(* Every execution ends with the same memories. *)
Definition ends_with {V} (op : V -> V -> V) (S : nat) (code : nat -> list sline) (m M : nat -> @memory V) : Prop :=
  forall s, sreach op S (sstart code m) s -> (forall p, p < S -> scode s p = []) ->
  forall p a, p < S -> smem s p a = M p a.
