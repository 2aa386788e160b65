(* Assembler lines between two passes, binary and ASCII.
   src/core/read_write.c:1020-1148 (names, cells), 1150-1177
   (ext_mpi_write_assembler_line), 1179-1268 (read_assembler_type), 1270-1290
   and 1292-1321 (binary ext_mpi_read_assembler_line), 1376-1421
   (ext_mpi_read_line), 1455-1465 (write_eof), 1467-1589 (copy/reduce and
   send/receive lines).
   Not modelled: the ASCII branch of ext_mpi_read_assembler_line (only used on
   parameter text), buffer sizes beyond the tests in the code. *)
From Verif Require Export Base BytesModel TextModel.
Local Open Scope Z_scope.

(* include/core/read_write.h, enum eassembler_type: the numbers used below *)
Definition ememcpy := 4. Definition ememcp_ := 5. Definition esmemcpy := 6. Definition esmemcp_ := 7.
Definition ereduce := 8. Definition ereduc_ := 9. Definition esreduce := 10. Definition esreduc_ := 11.
Definition eirecv := 12. Definition eirec_ := 13. Definition eisend := 14. Definition eisen_ := 15.
Definition eshmemo := 22. Definition ecpbuffer_offseto := 23. Definition ecp := 24. Definition enop := 26.
(* 1020-1121: the names, in the order of the enum *)
Definition names : list text :=
  [ txt "NODE_BARRIER"; txt "SOCKET_BARRIER"; txt "SET_SOCKET_BARRIER"; txt "WAIT_SOCKET_BARRIER";
    txt "MEMCPY"; txt "MEMCP_"; txt "SMEMCPY"; txt "SMEMCP_"; txt "REDUCE"; txt "REDUC_"; txt "SREDUCE"; txt "SREDUC_";
    txt "IRECV"; txt "IREC_"; txt "ISEND"; txt "ISEN_"; txt "WAITALL"; txt "WAITANY"; txt "ATTACHED";
    txt "SENDBUF+"; txt "RECVBUF+"; txt "LOCMEM+"; txt "SHMEM["; txt "]+BUFFER_OFFSET["; txt "]+";
    txt "RETURN"; txt "NOP"; txt "STAGE"; txt "START"; txt "GEMV" ].
(* 1179-1268: comparison with the names one after the other; "NOP" is not in the
   chain, its number is the answer for everything unknown *)
Definition text_eqb (a b : text) : bool := if list_eq_dec ascii_dec a b then true else false.
Definition type_table : list (text * Z) :=
  filter (fun p => negb (snd p =? enop)) (combine names (map Z.of_nat (seq 0 (length names)))).
Definition read_assembler_type (w : text) : Z :=
  match find (fun p => text_eqb (fst p) w) type_table with Some (_, e) => e | None => enop end.

(* One field of a line: 's' or 'd' *)
Inductive cell := Str (e : Z) | Num (d : Z).
Inductive kind := KStr | KNum.

(* ----- binary ----- *)
(* 1132-1148 *)
Definition cell_bytes (c : cell) : bytes := match c with Str e => 0 :: put_int e | Num d => 1 :: put_int d end.
(* 1150-1173: the length, then the fields *)
Definition line_bytes (cs : list cell) : bytes :=
  put_int (4 + 5 * Z.of_nat (length cs)) ++ flat_map cell_bytes cs.

(* A line in memory.  ext_mpi_read_line (1380-1385) fills the variable with -1 and
   copies the bytes of the line. *)
Definition buffer := nat -> Z.
Definition line_buffer (b : bytes) : buffer := fun k => nth k b 255.
Definition int_at (b : buffer) (k : nat) : Z :=
  signed 4 (b k + 256 * (b (k + 1)%nat + 256 * (b (k + 2)%nat + 256 * b (k + 3)%nat))).

(* 1270-1290, 1298-1321.  Result: the return value, and what is stored through the
   pointers, in order (None: left alone; fewer: not reached). *)
Definition INT_MIN := - 2 ^ 31.
Fixpoint read_bin (types : list kind) (n : Z) (j : nat) (b : buffer) : Z * list (option Z) :=
  match types with
  | [] => (if Z.of_nat j =? n then n else if Z.of_nat j <? n then 0 else -11, [])
  | t :: ts =>
    let (tag, wrong) := match t with KStr => (0, enop) | KNum => (1, INT_MIN) end in
    if negb (b j =? tag) then (-11, [Some wrong])
    else
      let v := if Z.of_nat (j + 1) <? n then Some (int_at b (j + 1)) else None in
      let (r, vs) := read_bin ts n (j + 5) b in (r, v :: vs)
  end.
Definition read_assembler_line (types : list kind) (b : buffer) : Z * list (option Z) :=
  read_bin types (int_at b 0) 4 b.

(* the pointers given to the call: the i-th value goes to the i-th variable *)
Fixpoint store {D : Type} (ptrs : list (Z -> D -> D)) (vs : list (option Z)) (d : D) : D :=
  match ptrs, vs with
  | p :: ps, v :: vs => store ps vs (match v with Some x => p x d | None => d end)
  | _, _ => d
  end.

(* 1380-1386: one line of the stream; 0 (write_eof) ends it; a line of more than 99
   bytes is stored through NULL: None *)
Definition read_line_bin (b : bytes) : option (Z * bytes * bytes) :=
  match get_int b with
  | Some (i, _) => if 99 <? i then None else Some (i, firstn (Z.to_nat i) b, skipn (Z.to_nat i) b)
  | None => None
  end.
(* the loop of every pass: read lines until 0 *)
Fixpoint read_lines_bin (fuel : nat) (b : bytes) : option (list bytes * bytes) :=
  match fuel with
  | O => None
  | S fuel => match read_line_bin b with
              | Some (i, l, r) => if i =? 0 then Some ([], skipn 4 b)
                                  else match read_lines_bin fuel r with Some (ls, e) => Some (l :: ls, e) | None => None end
              | None => None
              end
  end.
Definition eof_bytes : bytes := put_int 0.

(* ----- ASCII ----- *)
(* 1020-1130, 1174-1176 *)
Definition cell_text (c : cell) : text :=
  match c with
  | Str e => if (0 <=? e) && (e <? Z.of_nat (length names)) then (" "%char : ascii) :: nth (Z.to_nat e) names [] else []
  | Num d => (" "%char : ascii) :: print_int d
  end.
Definition newline : ascii := ascii_of_nat 10.
Definition line_text (cs : list cell) : text := flat_map cell_text cs ++ [newline].
(* sscanf "%99s" *)
Definition scan_word (s : text) : option text :=
  match fst (break is_space (skip_while is_space s)) with
  | [] => None
  | w => Some (firstn 99 w)
  end.
Definition token_end (c : ascii) : bool := (c =? " ")%char || (c =? newline)%char.
Definition is_blank (c : ascii) : bool := (c =? " ")%char.
(* 1388-1419; the end of the string is the 0 of the C string *)
Fixpoint read_line_ascii (fuel : nat) (s : text) : option (list cell * text) :=
  match fuel with
  | O => None
  | S fuel =>
    let s := skip_while is_blank s in
    let c := match scan_int s with
             | Some (j, _) => [Num j]
             | None => match scan_word s with Some w => [Str (read_assembler_type w)] | None => [] end
             end in
    match snd (break token_end s) with
    | [] => Some (c, [])
    | x :: r => if is_blank x then match read_line_ascii fuel (x :: r) with Some (cs, e) => Some (c ++ cs, e) | None => None end
                else Some (c, r)
    end
  end.

(* ----- send and receive lines ----- *)
(* struct line_irecv_isend; estring is the local variable of the reader *)
Record irecv_isend := {
  i_type : Z; i_buffer_type : Z; i_buffer_number : Z; i_is_offset : Z; i_offset_number : Z;
  i_offset : Z; i_size : Z; i_partner : Z; i_tag : Z; i_estring : Z }.
Definition si_type x d := {| i_type := x; i_buffer_type := i_buffer_type d; i_buffer_number := i_buffer_number d; i_is_offset := i_is_offset d; i_offset_number := i_offset_number d; i_offset := i_offset d; i_size := i_size d; i_partner := i_partner d; i_tag := i_tag d; i_estring := i_estring d |}.
Definition si_buffer_type x d := {| i_type := i_type d; i_buffer_type := x; i_buffer_number := i_buffer_number d; i_is_offset := i_is_offset d; i_offset_number := i_offset_number d; i_offset := i_offset d; i_size := i_size d; i_partner := i_partner d; i_tag := i_tag d; i_estring := i_estring d |}.
Definition si_buffer_number x d := {| i_type := i_type d; i_buffer_type := i_buffer_type d; i_buffer_number := x; i_is_offset := i_is_offset d; i_offset_number := i_offset_number d; i_offset := i_offset d; i_size := i_size d; i_partner := i_partner d; i_tag := i_tag d; i_estring := i_estring d |}.
Definition si_is_offset x d := {| i_type := i_type d; i_buffer_type := i_buffer_type d; i_buffer_number := i_buffer_number d; i_is_offset := x; i_offset_number := i_offset_number d; i_offset := i_offset d; i_size := i_size d; i_partner := i_partner d; i_tag := i_tag d; i_estring := i_estring d |}.
Definition si_offset_number x d := {| i_type := i_type d; i_buffer_type := i_buffer_type d; i_buffer_number := i_buffer_number d; i_is_offset := i_is_offset d; i_offset_number := x; i_offset := i_offset d; i_size := i_size d; i_partner := i_partner d; i_tag := i_tag d; i_estring := i_estring d |}.
Definition si_offset x d := {| i_type := i_type d; i_buffer_type := i_buffer_type d; i_buffer_number := i_buffer_number d; i_is_offset := i_is_offset d; i_offset_number := i_offset_number d; i_offset := x; i_size := i_size d; i_partner := i_partner d; i_tag := i_tag d; i_estring := i_estring d |}.
Definition si_size x d := {| i_type := i_type d; i_buffer_type := i_buffer_type d; i_buffer_number := i_buffer_number d; i_is_offset := i_is_offset d; i_offset_number := i_offset_number d; i_offset := i_offset d; i_size := x; i_partner := i_partner d; i_tag := i_tag d; i_estring := i_estring d |}.
Definition si_partner x d := {| i_type := i_type d; i_buffer_type := i_buffer_type d; i_buffer_number := i_buffer_number d; i_is_offset := i_is_offset d; i_offset_number := i_offset_number d; i_offset := i_offset d; i_size := i_size d; i_partner := x; i_tag := i_tag d; i_estring := i_estring d |}.
Definition si_tag x d := {| i_type := i_type d; i_buffer_type := i_buffer_type d; i_buffer_number := i_buffer_number d; i_is_offset := i_is_offset d; i_offset_number := i_offset_number d; i_offset := i_offset d; i_size := i_size d; i_partner := i_partner d; i_tag := x; i_estring := i_estring d |}.
Definition si_estring x d := {| i_type := i_type d; i_buffer_type := i_buffer_type d; i_buffer_number := i_buffer_number d; i_is_offset := i_is_offset d; i_offset_number := i_offset_number d; i_offset := i_offset d; i_size := i_size d; i_partner := i_partner d; i_tag := i_tag d; i_estring := x |}.

(* format strings *)
Definition kinds (s : text) : list kind := map (fun c => if (c =? "s")%char then KStr else KNum) s.
(* one call of ext_mpi_read_assembler_line *)
Definition scan {D : Type} (f : text) (ptrs : list (Z -> D -> D)) (b : buffer) (d : D) : Z * D :=
  let (r, vs) := read_assembler_line (kinds f) b in (r, store ptrs vs d).

(* 1467-1489; None: exit(1) *)
Definition read_irecv_isend (b : buffer) (d : irecv_isend) : option (Z * irecv_isend) :=
  let d := si_is_offset 0 (si_buffer_number (-1) (si_offset_number (-1) d)) in
  let (r, d) := scan (txt "s") [si_type] b d in
  if negb (0 <=? r) then Some (0, d) else
  if negb ((i_type d =? eirecv) || (i_type d =? eirec_) || (i_type d =? eisend) || (i_type d =? eisen_)) then Some (0, d) else
  let (i, d) := scan (txt "ssdddd") [si_type; si_buffer_type; si_offset; si_size; si_partner; si_tag] b d in
  if (i <? 0) || (i_buffer_type d =? eshmemo) then
    let (i, d) := scan (txt "ssdsdddd") [si_type; si_buffer_type; si_buffer_number; si_estring; si_offset; si_size; si_partner; si_tag] b d in
    if (i <? 0) || (i_estring d =? ecpbuffer_offseto) then
      let d := si_is_offset 1 d in
      let (i, d) := scan (txt "ssdsdsdddd") [si_type; si_buffer_type; si_buffer_number; si_estring; si_offset_number; si_estring; si_offset; si_size; si_partner; si_tag] b d in
      if i <? 0 then None else Some (1, d)
    else Some (1, d)
  else Some (1, d).
(* 1553-1561 *)
Definition write_irecv_isend (d : irecv_isend) : list cell :=
  if negb (i_buffer_type d =? eshmemo) then
    [Str (i_type d); Str (i_buffer_type d); Num (i_offset d); Num (i_size d); Num (i_partner d); Num (i_tag d)]
  else if i_is_offset d =? 0 then
    [Str (i_type d); Str (i_buffer_type d); Num (i_buffer_number d); Str ecp; Num (i_offset d); Num (i_size d); Num (i_partner d); Num (i_tag d)]
  else
    [Str (i_type d); Str (i_buffer_type d); Num (i_buffer_number d); Str ecpbuffer_offseto; Num (i_offset_number d); Str ecp; Num (i_offset d);
     Num (i_size d); Num (i_partner d); Num (i_tag d)].

(* ----- copy and reduce lines ----- *)
(* struct line_memcpy_reduce; estring and estring2 are locals of the reader *)
Record memcpy_reduce := {
  c_type : Z;
  c_buffer_type1 : Z; c_buffer_number1 : Z; c_is_offset1 : Z; c_offset_number1 : Z; c_offset1 : Z;
  c_buffer_type2 : Z; c_buffer_number2 : Z; c_is_offset2 : Z; c_offset_number2 : Z; c_offset2 : Z;
  c_size : Z; c_estring : Z; c_estring2 : Z }.
Definition sc_type x d := {| c_type := x; c_buffer_type1 := c_buffer_type1 d; c_buffer_number1 := c_buffer_number1 d; c_is_offset1 := c_is_offset1 d; c_offset_number1 := c_offset_number1 d; c_offset1 := c_offset1 d; c_buffer_type2 := c_buffer_type2 d; c_buffer_number2 := c_buffer_number2 d; c_is_offset2 := c_is_offset2 d; c_offset_number2 := c_offset_number2 d; c_offset2 := c_offset2 d; c_size := c_size d; c_estring := c_estring d; c_estring2 := c_estring2 d |}.
Definition sc_buffer_type1 x d := {| c_type := c_type d; c_buffer_type1 := x; c_buffer_number1 := c_buffer_number1 d; c_is_offset1 := c_is_offset1 d; c_offset_number1 := c_offset_number1 d; c_offset1 := c_offset1 d; c_buffer_type2 := c_buffer_type2 d; c_buffer_number2 := c_buffer_number2 d; c_is_offset2 := c_is_offset2 d; c_offset_number2 := c_offset_number2 d; c_offset2 := c_offset2 d; c_size := c_size d; c_estring := c_estring d; c_estring2 := c_estring2 d |}.
Definition sc_buffer_number1 x d := {| c_type := c_type d; c_buffer_type1 := c_buffer_type1 d; c_buffer_number1 := x; c_is_offset1 := c_is_offset1 d; c_offset_number1 := c_offset_number1 d; c_offset1 := c_offset1 d; c_buffer_type2 := c_buffer_type2 d; c_buffer_number2 := c_buffer_number2 d; c_is_offset2 := c_is_offset2 d; c_offset_number2 := c_offset_number2 d; c_offset2 := c_offset2 d; c_size := c_size d; c_estring := c_estring d; c_estring2 := c_estring2 d |}.
Definition sc_is_offset1 x d := {| c_type := c_type d; c_buffer_type1 := c_buffer_type1 d; c_buffer_number1 := c_buffer_number1 d; c_is_offset1 := x; c_offset_number1 := c_offset_number1 d; c_offset1 := c_offset1 d; c_buffer_type2 := c_buffer_type2 d; c_buffer_number2 := c_buffer_number2 d; c_is_offset2 := c_is_offset2 d; c_offset_number2 := c_offset_number2 d; c_offset2 := c_offset2 d; c_size := c_size d; c_estring := c_estring d; c_estring2 := c_estring2 d |}.
Definition sc_offset_number1 x d := {| c_type := c_type d; c_buffer_type1 := c_buffer_type1 d; c_buffer_number1 := c_buffer_number1 d; c_is_offset1 := c_is_offset1 d; c_offset_number1 := x; c_offset1 := c_offset1 d; c_buffer_type2 := c_buffer_type2 d; c_buffer_number2 := c_buffer_number2 d; c_is_offset2 := c_is_offset2 d; c_offset_number2 := c_offset_number2 d; c_offset2 := c_offset2 d; c_size := c_size d; c_estring := c_estring d; c_estring2 := c_estring2 d |}.
Definition sc_offset1 x d := {| c_type := c_type d; c_buffer_type1 := c_buffer_type1 d; c_buffer_number1 := c_buffer_number1 d; c_is_offset1 := c_is_offset1 d; c_offset_number1 := c_offset_number1 d; c_offset1 := x; c_buffer_type2 := c_buffer_type2 d; c_buffer_number2 := c_buffer_number2 d; c_is_offset2 := c_is_offset2 d; c_offset_number2 := c_offset_number2 d; c_offset2 := c_offset2 d; c_size := c_size d; c_estring := c_estring d; c_estring2 := c_estring2 d |}.
Definition sc_buffer_type2 x d := {| c_type := c_type d; c_buffer_type1 := c_buffer_type1 d; c_buffer_number1 := c_buffer_number1 d; c_is_offset1 := c_is_offset1 d; c_offset_number1 := c_offset_number1 d; c_offset1 := c_offset1 d; c_buffer_type2 := x; c_buffer_number2 := c_buffer_number2 d; c_is_offset2 := c_is_offset2 d; c_offset_number2 := c_offset_number2 d; c_offset2 := c_offset2 d; c_size := c_size d; c_estring := c_estring d; c_estring2 := c_estring2 d |}.
Definition sc_buffer_number2 x d := {| c_type := c_type d; c_buffer_type1 := c_buffer_type1 d; c_buffer_number1 := c_buffer_number1 d; c_is_offset1 := c_is_offset1 d; c_offset_number1 := c_offset_number1 d; c_offset1 := c_offset1 d; c_buffer_type2 := c_buffer_type2 d; c_buffer_number2 := x; c_is_offset2 := c_is_offset2 d; c_offset_number2 := c_offset_number2 d; c_offset2 := c_offset2 d; c_size := c_size d; c_estring := c_estring d; c_estring2 := c_estring2 d |}.
Definition sc_is_offset2 x d := {| c_type := c_type d; c_buffer_type1 := c_buffer_type1 d; c_buffer_number1 := c_buffer_number1 d; c_is_offset1 := c_is_offset1 d; c_offset_number1 := c_offset_number1 d; c_offset1 := c_offset1 d; c_buffer_type2 := c_buffer_type2 d; c_buffer_number2 := c_buffer_number2 d; c_is_offset2 := x; c_offset_number2 := c_offset_number2 d; c_offset2 := c_offset2 d; c_size := c_size d; c_estring := c_estring d; c_estring2 := c_estring2 d |}.
Definition sc_offset_number2 x d := {| c_type := c_type d; c_buffer_type1 := c_buffer_type1 d; c_buffer_number1 := c_buffer_number1 d; c_is_offset1 := c_is_offset1 d; c_offset_number1 := c_offset_number1 d; c_offset1 := c_offset1 d; c_buffer_type2 := c_buffer_type2 d; c_buffer_number2 := c_buffer_number2 d; c_is_offset2 := c_is_offset2 d; c_offset_number2 := x; c_offset2 := c_offset2 d; c_size := c_size d; c_estring := c_estring d; c_estring2 := c_estring2 d |}.
Definition sc_offset2 x d := {| c_type := c_type d; c_buffer_type1 := c_buffer_type1 d; c_buffer_number1 := c_buffer_number1 d; c_is_offset1 := c_is_offset1 d; c_offset_number1 := c_offset_number1 d; c_offset1 := c_offset1 d; c_buffer_type2 := c_buffer_type2 d; c_buffer_number2 := c_buffer_number2 d; c_is_offset2 := c_is_offset2 d; c_offset_number2 := c_offset_number2 d; c_offset2 := x; c_size := c_size d; c_estring := c_estring d; c_estring2 := c_estring2 d |}.
Definition sc_size x d := {| c_type := c_type d; c_buffer_type1 := c_buffer_type1 d; c_buffer_number1 := c_buffer_number1 d; c_is_offset1 := c_is_offset1 d; c_offset_number1 := c_offset_number1 d; c_offset1 := c_offset1 d; c_buffer_type2 := c_buffer_type2 d; c_buffer_number2 := c_buffer_number2 d; c_is_offset2 := c_is_offset2 d; c_offset_number2 := c_offset_number2 d; c_offset2 := c_offset2 d; c_size := x; c_estring := c_estring d; c_estring2 := c_estring2 d |}.
Definition sc_estring x d := {| c_type := c_type d; c_buffer_type1 := c_buffer_type1 d; c_buffer_number1 := c_buffer_number1 d; c_is_offset1 := c_is_offset1 d; c_offset_number1 := c_offset_number1 d; c_offset1 := c_offset1 d; c_buffer_type2 := c_buffer_type2 d; c_buffer_number2 := c_buffer_number2 d; c_is_offset2 := c_is_offset2 d; c_offset_number2 := c_offset_number2 d; c_offset2 := c_offset2 d; c_size := c_size d; c_estring := x; c_estring2 := c_estring2 d |}.
Definition sc_estring2 x d := {| c_type := c_type d; c_buffer_type1 := c_buffer_type1 d; c_buffer_number1 := c_buffer_number1 d; c_is_offset1 := c_is_offset1 d; c_offset_number1 := c_offset_number1 d; c_offset1 := c_offset1 d; c_buffer_type2 := c_buffer_type2 d; c_buffer_number2 := c_buffer_number2 d; c_is_offset2 := c_is_offset2 d; c_offset_number2 := c_offset_number2 d; c_offset2 := c_offset2 d; c_size := c_size d; c_estring := c_estring d; c_estring2 := x |}.
(* 1491-1551 *)
Definition read_memcpy_reduce (b : buffer) (d : memcpy_reduce) : option (Z * memcpy_reduce) :=
  let d := sc_buffer_number1 (-1) (sc_offset_number1 (-1) (sc_buffer_number2 (-1) (sc_offset_number2 (-1) d))) in
  let d := sc_is_offset1 0 (sc_is_offset2 0 d) in
  let (r, d) := scan (txt "s") [sc_type] b d in
  if negb (0 <=? r) then Some (0, d) else
  if negb ((c_type d =? ememcpy) || (c_type d =? ememcp_) || (c_type d =? ereduce) || (c_type d =? ereduc_) ||
           (c_type d =? esmemcpy) || (c_type d =? esmemcp_) || (c_type d =? esreduce) || (c_type d =? esreduc_)) then Some (0, d) else
  let (i, d) := scan (txt "ssd") [sc_type; sc_buffer_type1; sc_offset1] b d in
  if (i <? 0) || (c_buffer_type1 d =? eshmemo) then
    let (i, d) := scan (txt "ssdsd") [sc_type; sc_buffer_type1; sc_buffer_number1; sc_estring; sc_offset1] b d in
    if (i <? 0) || (c_estring d =? ecpbuffer_offseto) then
      let d := sc_is_offset1 1 d in
      let (i, d) := scan (txt "ssdsdsdsdd") [sc_type; sc_buffer_type1; sc_buffer_number1; sc_estring; sc_offset_number1; sc_estring; sc_offset1;
                                             sc_buffer_type2; sc_offset2; sc_size] b d in
      if (i <? 0) || (c_buffer_type2 d =? eshmemo) then
        let (i, d) := scan (txt "ssdsdsdsdsdd") [sc_type; sc_buffer_type1; sc_buffer_number1; sc_estring; sc_offset_number1; sc_estring; sc_offset1;
                                                 sc_buffer_type2; sc_buffer_number2; sc_estring2; sc_offset2; sc_size] b d in
        let d := sc_is_offset2 0 d in
        if (i <? 0) || (c_estring2 d =? ecpbuffer_offseto) then
          let d := sc_is_offset2 1 d in
          let (i, d) := scan (txt "ssdsdsdsdsdsdd") [sc_type; sc_buffer_type1; sc_buffer_number1; sc_estring; sc_offset_number1; sc_estring; sc_offset1;
                                                     sc_buffer_type2; sc_buffer_number2; sc_estring; sc_offset_number2; sc_estring; sc_offset2; sc_size] b d in
          if i <? 0 then None else Some (1, d)
        else Some (1, d)
      else Some (1, d)
    else
      let d := sc_offset_number1 (-1) (sc_is_offset1 0 d) in
      let (i, d) := scan (txt "ssdsdsdd") [sc_type; sc_buffer_type1; sc_buffer_number1; sc_estring; sc_offset1; sc_buffer_type2; sc_offset2; sc_size] b d in
      if (i <? 0) || (c_buffer_type2 d =? eshmemo) then
        let (i, d) := scan (txt "ssdsdsdsdd") [sc_type; sc_buffer_type1; sc_buffer_number1; sc_estring; sc_offset1;
                                               sc_buffer_type2; sc_buffer_number2; sc_estring2; sc_offset2; sc_size] b d in
        if (i <? 0) || (c_estring2 d =? ecpbuffer_offseto) then
          let d := sc_is_offset2 1 d in
          let (i, d) := scan (txt "ssdsdsdsdsdd") [sc_type; sc_buffer_type1; sc_buffer_number1; sc_estring; sc_offset1;
                                                   sc_buffer_type2; sc_buffer_number2; sc_estring; sc_offset_number2; sc_estring; sc_offset2; sc_size] b d in
          if i <? 0 then None else Some (1, d)
        else Some (1, sc_offset_number2 (-1) (sc_is_offset2 0 d))
      else Some (1, d)
  else
    let (i, d) := scan (txt "ssdsdd") [sc_type; sc_buffer_type1; sc_offset1; sc_buffer_type2; sc_offset2; sc_size] b d in
    if (i <? 0) || (c_buffer_type2 d =? eshmemo) then
      let (i, d) := scan (txt "ssdsdsdd") [sc_type; sc_buffer_type1; sc_offset1; sc_buffer_type2; sc_buffer_number2; sc_estring; sc_offset2; sc_size] b d in
      if (i <? 0) || (c_estring d =? ecpbuffer_offseto) then
        let d := sc_is_offset2 1 d in
        let (i, d) := scan (txt "ssdsdsdsdd") [sc_type; sc_buffer_type1; sc_offset1; sc_buffer_type2; sc_buffer_number2; sc_estring; sc_offset_number2; sc_estring; sc_offset2; sc_size] b d in
        if i <? 0 then None else Some (1, d)
      else Some (1, sc_offset_number2 (-1) (sc_is_offset2 0 d))
    else Some (1, d).
(* 1563-1589 *)
Definition write_memcpy_reduce (d : memcpy_reduce) : list cell :=
  [Str (c_type d); Str (c_buffer_type1 d)] ++
  (if negb (c_buffer_type1 d =? eshmemo) then [Num (c_offset1 d)]
   else if c_is_offset1 d =? 0 then [Num (c_buffer_number1 d); Str ecp; Num (c_offset1 d)]
   else [Num (c_buffer_number1 d); Str ecpbuffer_offseto; Num (c_offset_number1 d); Str ecp; Num (c_offset1 d)]) ++
  [Str (c_buffer_type2 d)] ++
  (if negb (c_buffer_type2 d =? eshmemo) then [Num (c_offset2 d)]
   else if c_is_offset2 d =? 0 then [Num (c_buffer_number2 d); Str ecp; Num (c_offset2 d)]
   else [Num (c_buffer_number2 d); Str ecpbuffer_offseto; Num (c_offset_number2 d); Str ecp; Num (c_offset2 d)]) ++
  [Num (c_size d)].
