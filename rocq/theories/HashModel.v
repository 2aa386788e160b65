(* Model of the request registry, src/mpi/hash_table.c (the copy
   hash_table_blocking.c is the same code for communicators). *)
From Verif Require Import Base.

(* hash_table.c:8 *)
Definition SIZE : nat := 256.

Section Hash.
  (* The type MPI_Request with its equality, MPI_REQUEST_NULL and the hash.
     The properties are proved for every choice; [hash_code] below is the
     actual function. *)
  Context {K : Type} (keq : forall a b : K, {a = b} + {a <> b}).
  Context (null : K) (h : K -> nat).

  (* hash_table.c:10-13: a slot is the NULL pointer or points to a DataItem.
     A deleted slot points to dummyItem, which is (null, -1) (lines 90-91). *)
  Inductive slot := Free | Item (k : K) (d : Z).
  Definition dummy : slot := Item null (-1)%Z.

  (* hash_table.c:15: hashArray, indices 0..255. *)
  Definition table := nat -> slot.

  (* hash_table.c:80-93 *)
  Definition hash_init : table := fun _ => Free.

  Definition next (i : nat) : nat := (i + 1) mod SIZE.   (* lines 35-37 *)

  (* hash_table.c:30-40.  [None] = the fuel ran out before the loop ended. *)
  Fixpoint search_loop (fuel : nat) (t : table) (i : nat) (key : K) : option Z :=
    match fuel with
    | O => None
    | S f =>
      match t i with
      | Free => Some (-1)%Z
      | Item k d => if keq k key then Some d else search_loop f t (next i) key
      end
    end.

  (* hash_table.c:51-55: index at which the new item is stored. *)
  Fixpoint insert_loop (fuel : nat) (t : table) (i : nat) : option nat :=
    match fuel with
    | O => None
    | S f =>
      match t i with
      | Free => Some i
      | Item k d => if keq k null then Some i else insert_loop f t (next i)
      end
    end.

  (* hash_table.c:63-77: slot to be replaced by dummyItem, if any, and the
     returned value.  (If [key] is MPI_REQUEST_NULL the C code may free
     dummyItem itself, which is undefined behaviour later on; the callers
     never do that and the theorems assume key <> null.) *)
  Fixpoint delete_loop (fuel : nat) (t : table) (i : nat) (key : K)
    : option (option nat * Z) :=
    match fuel with
    | O => None
    | S f =>
      match t i with
      | Free => Some (None, (-1)%Z)
      | Item k d => if keq k key then Some (Some i, d)
                    else delete_loop f t (next i) key
      end
    end.

  Definition set (t : table) (i : nat) (s : slot) : table := upd Nat.eq_dec t i s.

  (* Calls made by the MPI wrappers, src/mpi/ext_mpi_interface.c *)
  Inductive hop :=
  | HInsert (k : K) (v : Z)     (* ext_mpi_hash_insert, e.g. line 60 *)
  | HSearch (k : K)             (* ext_mpi_hash_search, e.g. line 129 *)
  | HDelete (k : K).            (* ext_mpi_hash_delete, line 123 *)

  (* One call: new table and returned value (0 for the void insert);
     [None] = still probing after [fuel] slots. *)
  Definition hash_op (fuel : nat) (t : table) (o : hop) : option (table * Z) :=
    match o with
    | HInsert k v =>
      match insert_loop fuel t (h k) with
      | Some i => Some (set t i (Item k v), 0%Z)
      | None => None
      end
    | HSearch k =>
      match search_loop fuel t (h k) k with
      | Some v => Some (t, v)
      | None => None
      end
    | HDelete k =>
      match delete_loop fuel t (h k) k with
      | Some (Some i, d) => Some (set t i dummy, d)
      | Some (None, d) => Some (t, d)
      | None => None
      end
    end.

  (* A whole history; [None] as soon as one call does not return. *)
  Fixpoint hash_run (fuel : nat) (t : table) (os : list hop) : option (table * list Z) :=
    match os with
    | [] => Some (t, [])
    | o :: os' =>
      match hash_op fuel t o with
      | None => None
      | Some (t', r) =>
        match hash_run fuel t' os' with
        | None => None
        | Some (t'', rs) => Some (t'', r :: rs)
        end
      end
    end.
End Hash.

(* hash_table.c:18-25: the sum of the bytes of the request, as an unsigned char. *)
Definition hash_code (bytes : list nat) : nat := fold_left Nat.add bytes 0 mod 256.
