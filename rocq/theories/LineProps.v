(* Claim C25: lines exchanged by the passes. *)
From Verif Require Import Base BytesModel LineModel LineSpec LineProofs.
Local Open Scope Z_scope.

(* A copy or reduce line written by one pass is read with the same fields by the
   next, whatever was in the variables of the reader (d0). *)
Theorem C25_memcpy_reduce_round_trip :
  forall d d0, memcpy_reduce_ok d ->
  exists d', read_memcpy_reduce (line_buffer (line_bytes (write_memcpy_reduce d))) d0 = Some (1, d') /\ same_memcpy_reduce d' d.
Proof. exact memcpy_round_trip. Qed.
Print Assumptions C25_memcpy_reduce_round_trip.
Theorem C25_irecv_isend_round_trip :
  forall d d0, irecv_isend_ok d ->
  exists d', read_irecv_isend (line_buffer (line_bytes (write_irecv_isend d))) d0 = Some (1, d') /\ same_irecv_isend d' d.
Proof. exact irecv_round_trip. Qed.
Print Assumptions C25_irecv_isend_round_trip.

(* A stream of lines of at most 19 fields, and its end. *)
Theorem C25_stream_round_trip :
  forall ls fuel rest, Forall (fun cs => (length cs <= 19)%nat) ls -> (length ls < fuel)%nat ->
  read_lines_bin fuel (flat_map line_bytes ls ++ eof_bytes ++ rest) = Some (map line_bytes ls, rest).
Proof. exact read_lines_ok. Qed.
Print Assumptions C25_stream_round_trip.
(* Copy, reduce, send and receive lines are short enough. *)
Theorem C25_lines_short :
  (forall d, memcpy_reduce_ok d -> (length (write_memcpy_reduce d) <= 19)%nat) /\
  (forall d, irecv_isend_ok d -> (length (write_irecv_isend d) <= 19)%nat).
Proof.
  split; intros d H.
  - assert (X := proj2 (write_memcpy_reduce_ok d H)). lia.
  - assert (X := proj2 (write_irecv_isend_ok d H)). lia.
Qed.
Print Assumptions C25_lines_short.
(* A longer line is stored through a null pointer. *)
Theorem C25_long_line_refuted :
  forall cs rest, (20 <= length cs < 1000)%nat -> read_line_bin (line_bytes cs ++ rest) = None.
Proof. exact read_line_long. Qed.
Print Assumptions C25_long_line_refuted.

(* ASCII form: every line with at least one field. *)
Theorem C25_ascii_round_trip :
  forall c cs fuel rest, Forall cell_ok (c :: cs) -> (length cs < fuel)%nat ->
  read_line_ascii fuel (line_text (c :: cs) ++ rest) = Some (c :: cs, rest).
Proof. intros c cs fuel rest. apply read_line_ascii_ok. Qed.
Print Assumptions C25_ascii_round_trip.

Definition ex_mr : memcpy_reduce :=
  {| c_type := ereduce; c_buffer_type1 := eshmemo; c_buffer_number1 := 3; c_is_offset1 := 1; c_offset_number1 := 2; c_offset1 := -8;
     c_buffer_type2 := 19; c_buffer_number2 := -1; c_is_offset2 := 0; c_offset_number2 := -1; c_offset2 := 64; c_size := 1000; c_estring := 0; c_estring2 := 0 |}.
Definition ex_ii : irecv_isend :=
  {| i_type := eisend; i_buffer_type := eshmemo; i_buffer_number := 0; i_is_offset := 0; i_offset_number := -1; i_offset := 128;
     i_size := 8; i_partner := 3; i_tag := 1; i_estring := 0 |}.
Example C25_example : memcpy_reduce_ok ex_mr /\ irecv_isend_ok ex_ii /\ Forall cell_ok (write_memcpy_reduce ex_mr) /\
  line_text (write_irecv_isend ex_ii) = txt " ISEND SHMEM[ 0 ]+ 128 8 3 1" ++ [newline].
Proof.
  assert (H : memcpy_reduce_ok ex_mr).
  { unfold memcpy_reduce_ok, place_ok, buffer_type_ok, is_int, ex_mr, ememcpy, esreduc_, ereduce, eshmemo. cbn.
    repeat split; try lia. }
  split; [exact H|]. split.
  { unfold irecv_isend_ok, place_ok, buffer_type_ok, is_int, ex_ii, eirecv, eisen_, eisend, eshmemo. cbn.
    repeat split; try lia; try contradiction. }
  split; [exact (proj1 (write_memcpy_reduce_ok ex_mr H))|vm_compute; reflexivity].
Qed.
