(* Claim C25: which lines can be written. *)
From Verif Require Export Base LineModel.
Local Open Scope Z_scope.

Definition cell_ok (c : cell) : Prop := match c with Str e => 0 <= e < 30 | Num d => is_int d end.
Definition buffer_type_ok (t : Z) : Prop := 19 <= t <= 22.  (* esendbufp .. eshmemo *)
(* A position: what is not used by the kind of buffer has its neutral value. *)
Definition place_ok (t number is_offset offset_number offset : Z) : Prop :=
  buffer_type_ok t /\ is_int number /\ is_int offset_number /\ is_int offset /\
  (t <> eshmemo -> number = -1 /\ is_offset = 0 /\ offset_number = -1) /\
  (is_offset = 0 /\ offset_number = -1 \/ is_offset = 1).
Definition irecv_isend_ok (d : irecv_isend) : Prop :=
  eirecv <= i_type d <= eisen_ /\
  place_ok (i_buffer_type d) (i_buffer_number d) (i_is_offset d) (i_offset_number d) (i_offset d) /\
  is_int (i_size d) /\ is_int (i_partner d) /\ is_int (i_tag d).
Definition memcpy_reduce_ok (d : memcpy_reduce) : Prop :=
  ememcpy <= c_type d <= esreduc_ /\
  place_ok (c_buffer_type1 d) (c_buffer_number1 d) (c_is_offset1 d) (c_offset_number1 d) (c_offset1 d) /\
  place_ok (c_buffer_type2 d) (c_buffer_number2 d) (c_is_offset2 d) (c_offset_number2 d) (c_offset2 d) /\
  is_int (c_size d).
(* equal but for the local variables of the reader *)
Definition same_irecv_isend (a b : irecv_isend) : Prop := si_estring 0 a = si_estring 0 b.
Definition same_memcpy_reduce (a b : memcpy_reduce) : Prop := sc_estring2 0 (sc_estring 0 a) = sc_estring2 0 (sc_estring 0 b).
