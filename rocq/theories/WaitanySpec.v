(* Claim C10: what the executor of MPIWAITANY must achieve. *)
From Coq Require Export Permutation.
From Verif Require Export Base WaitanyModel.
Local Open Scope Z_scope.

(* What one reduction adds to address a, the values being taken from src *)
Definition gain1 (src : memory) (a : Z) (r : red) : Z :=
  if insideb (to r) (len r) a then src (from r + (a - to r)) else 0.
Definition total (l : list Z) : Z := fold_right Z.add 0 l.

(* Every request transfers its data once, before it completes once. *)
Definition possible (n : nat) (tr : list event) : Prop :=
  Permutation tr (map Transfer (seq 0 n) ++ map Complete (seq 0 n)) /\
  forall i a b, tr = a ++ Complete i :: b -> In (Transfer i) a.

(* No two buffers in use at the same time overlap. *)
Definition apart (b : Z) (l : nat) (b' : Z) (l' : nat) : Prop := forall a, inside b l a -> ~ inside b' l' a.
Record layout (reqs : list request) : Prop := {
  buffers_apart : forall i j, (i < length reqs)%nat -> (j < length reqs)%nat -> i <> j ->
    is_send (req reqs i) = false -> apart (base (req reqs i)) (size (req reqs i)) (base (req reqs j)) (size (req reqs j));
  reds_received : forall i r, (i < length reqs)%nat -> In r (reds (req reqs i)) -> is_send (req reqs i) = false /\
    forall a, inside (from r) (len r) a -> inside (base (req reqs i)) (size (req reqs i)) a;
  target_apart : forall i j r, (i < length reqs)%nat -> (j < length reqs)%nat -> In r (reds (req reqs i)) ->
    is_send (req reqs j) = false -> apart (to r) (len r) (base (req reqs j)) (size (req reqs j))
}.
(* Destination updated at once: no message leaves from the destination. *)
Definition sends_apart (reqs : list request) : Prop :=
  forall i j r, (i < length reqs)%nat -> (j < length reqs)%nat -> In r (reds (req reqs i)) ->
    is_send (req reqs j) = true -> apart (to r) (len r) (base (req reqs j)) (size (req reqs j)).
(* Destination updated late: all requests reduce to the same places, and the parts
   of one message do not overlap. *)
Fixpoint parts_apart (rs : list red) : Prop :=
  match rs with
  | [] => True
  | r :: rs => (forall r', In r' rs -> apart (from r) (len r) (from r') (len r') /\ apart (from r') (len r') (from r) (len r)) /\ parts_apart rs
  end.
Definition same_target (reqs : list request) : Prop :=
  (forall i j, (i < length reqs)%nat -> (j < length reqs)%nat -> reds (req reqs i) <> [] -> reds (req reqs j) <> [] ->
     map to (reds (req reqs i)) = map to (reds (req reqs j)) /\ map len (reds (req reqs i)) = map len (reds (req reqs j))) /\
  forall i, (i < length reqs)%nat -> parts_apart (reds (req reqs i)).

(* Outside the receive buffers: what was there plus all contributions, in the order
   of the requests.  Every message is sent and carries what was in its buffer at the start. *)
Definition summed (reqs : list request) (payload m0 : memory) (s : state) : Prop :=
  (forall a, (forall j, (j < length reqs)%nat -> is_send (req reqs j) = false -> ~ inside (base (req reqs j)) (size (req reqs j)) a) ->
     mem s a = m0 a + total (map (gain1 payload a) (flat_map reds reqs))) /\
  (forall i c, In (i, c) (sent s) -> c = contents m0 (req reqs i)) /\
  forall i, (i < length reqs)%nat -> is_send (req reqs i) = true -> In (i, contents m0 (req reqs i)) (sent s).
