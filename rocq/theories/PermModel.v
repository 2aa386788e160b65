(* Model of src/core/rank_permutation.c: the size-balancing heuristic (12-88)
   and the two passes that apply and undo the permutation (90-228). *)
From Coq Require Import Permutation.
From Verif Require Import Base SchedModel.

(* struct node, 16-18 *)
Record node := Node { n_value : Z; n_key : nat; n_color : nat }.

(* 22-25 *)
Definition start (sizes : list Z) : list node :=
  map (fun i => Node (nth i sizes 0%Z) i i) (seq 0 (length sizes)).

(* 29-38: the value of each color; entry 0 is cleared if their number is odd.
   Sums are integers without overflow. *)
Definition color_value (c : nat) (org : list node) (k : nat) : Z :=
  if Nat.odd c && (k =? 0) then 0%Z
  else fold_right Z.add 0%Z (map n_value (filter (fun a => n_color a =? k) org)).

(* 39: qsort by value only.  [ord] is the list of keys afterwards: any sorted
   arrangement is a legal result; [stable] arrangements keep the order of equal
   elements, as the merge sort of some C libraries does. *)
Definition sort_result (c : nat) (org : list node) (ord : list nat) : Prop :=
  Permutation ord (seq 0 c) /\
  forall i j, i < j < c -> (color_value c org (nth i ord 0%nat) <= color_value c org (nth j ord 0%nat))%Z.
Definition stable (c : nat) (org : list node) (ord : list nat) : Prop :=
  forall i j, i < j < c -> color_value c org (nth i ord 0%nat) = color_value c org (nth j ord 0%nat) ->
  nth i ord 0 < nth j ord 0.

(* the inner loops over j: nodes of a color, in order, with a new color *)
Definition take (org : list node) (old new : nat) : list node :=
  map (fun a => Node (n_value a) (n_key a) new) (filter (fun a => n_color a =? old) org).

(* 40-78; array_org2 is taken to be large enough *)
Definition round (c : nat) (ord : list nat) (org : list node) : list node :=
  if Nat.even c then
    flat_map (fun i => take org (if Nat.odd i then nth (c - 1 - i / 2) ord 0%nat else nth (i / 2) ord 0%nat) (i / 2))
             (seq 0 c)
  else
    take org 0 0 ++
    flat_map (fun i => take org (if Nat.odd i then nth (c - 1 - i / 2) ord 0%nat else nth (i / 2 + 1) ord 0%nat) (i / 2 + 1))
             (seq 0 (c - 1)).

(* the loop 26-82 from [c] colors; [good] restricts the sorting results *)
Inductive rounds (good : nat -> list node -> list nat -> Prop) : nat -> list node -> list node -> Prop :=
| round_last : forall c org ord, sort_result c org ord -> good c org ord ->
    (c + 1) / 2 <= 1 -> rounds good c org (round c ord org)
| round_more : forall c org ord out, sort_result c org ord -> good c org ord ->
    1 < (c + 1) / 2 -> rounds good ((c + 1) / 2) (round c ord org) out -> rounds good c org out.

(* 83-85 *)
Definition heuristic good (sizes : list Z) (perm : list nat) : Prop :=
  exists out, rounds good (length sizes) (start sizes) out /\ perm = map n_key out.

(* 110-123: identity if all sizes are equal *)
Definition chosen good (sizes : list Z) (perm : list nat) : Prop :=
  if existsb (fun s => negb (s =? nth 0 sizes 0)%Z) sizes then heuristic good sizes perm
  else perm = seq 0 (length sizes).

(* 135-137 *)
Definition back_perm (perm : list nat) : list nat :=
  fold_left (fun b i => lset b (nth i perm 0) i) (seq 0 (length perm)) (repeat 0 (length perm)).

(* the socket number and message sizes of the parameters *)
(* 138-141 *)
Definition forward (perm : list nat) (par : nat * list Z) : nat * list Z :=
  let back := back_perm perm in
  (nth (fst par) back 0, map (fun i => nth (nth i back 0) (snd par) 0%Z) (seq 0 (length (snd par)))).
(* 181-188 *)
Definition backward (perm : list nat) (par : nat * list Z) : nat * list Z :=
  (nth (fst par) perm 0, map (fun i => nth (nth i perm 0) (snd par) 0%Z) (seq 0 (length (snd par)))).

(* 196-211: the schedule *)
Definition permute_node (perm : list nat) (e : Z) : Z :=
  if (0 <=? e)%Z then Z.of_nat (nth (Z.to_nat e) perm 0) else e.
Definition permute_line (perm : list nat) (l : line) : line :=
  let m := map (fun e : Z * nat => (permute_node perm (fst e), snd e)) in
  Line (nth (frac l) perm 0) (m (sendto l)) (m (recvfrom l)) (reducefrom l) (copyreducefrom l).
Definition permute_block (perm : list nat) (b : block) : block :=
  Block (num_lines b) (fun n => permute_line perm (lines b n)).
