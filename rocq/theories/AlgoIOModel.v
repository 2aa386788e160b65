(* The binary form of a schedule between two passes.
   src/core/read_write.c: ext_mpi_read_algorithm (785-865), ext_mpi_write_algorithm
   (936-971).  The ASCII form (866-925, 972-1001) is not modelled here.
   Simplifications: malloc succeeds; a read past the end of the buffer is None
   instead of undefined. *)
From Verif Require Export Base BytesModel.
Local Open Scope Z_scope.

(* include/core/read_write.h, struct data_algorithm_line: an array of entries and
   its length; the two arrays sendto_node and sendto_line share one length, as do
   recvfrom_node and recvfrom_line. *)
Record aline := {
  frac : Z;
  sendto_max : Z; sendto_node : list Z; sendto_line : list Z;
  recvfrom_max : Z; recvfrom_node : list Z; recvfrom_line : list Z;
  reducefrom_max : Z; reducefrom : list Z;
  copyreducefrom_max : Z; copyreducefrom : list Z }.
Record ablock := { num_lines : Z; alines : list aline }.
Record algo := { num_blocks : Z; blocks : list ablock }.

(* memcpy(.., a, sizeof(int) * n), n > 0 elements of an array *)
Definition put_array (n : Z) (a : list Z) : bytes := put_ints (firstn (Z.to_nat n) a).
(* 945-969 *)
Definition write_aline (l : aline) : bytes :=
  put_int (frac l) ++ put_int (sendto_max l) ++ put_int (recvfrom_max l) ++
  put_int (reducefrom_max l) ++ put_int (copyreducefrom_max l) ++
  put_array (sendto_max l) (sendto_node l) ++ put_array (sendto_max l) (sendto_line l) ++
  put_array (recvfrom_max l) (recvfrom_node l) ++ put_array (recvfrom_max l) (recvfrom_line l) ++
  put_array (reducefrom_max l) (reducefrom l) ++ put_array (copyreducefrom_max l) (copyreducefrom l).
(* 941-944 *)
Definition write_ablock (b : ablock) : bytes :=
  put_int (num_lines b) ++ flat_map write_aline (firstn (Z.to_nat (num_lines b)) (alines b)).
(* 938-940 *)
Definition write_algo (a : algo) : bytes :=
  put_int (num_blocks a) ++ flat_map write_ablock (firstn (Z.to_nat (num_blocks a)) (blocks a)).

(* one array of n elements, NULL ([]) unless n > 0 *)
Definition get_array (n : Z) (b : bytes) : option (list Z * bytes) :=
  if 0 <? n then get_ints (Z.to_nat n) b else Some ([], b).
(* 807-862 *)
Definition read_aline (b : bytes) : option (aline * bytes) :=
  match get_int b with Some (f, b) =>
  match get_int b with Some (sm, b) =>
  match get_int b with Some (vm, b) =>
  match get_int b with Some (dm, b) =>
  match get_int b with Some (cm, b) =>
  match get_array sm b with Some (sn, b) =>
  match get_array sm b with Some (sl, b) =>
  match get_array vm b with Some (vn, b) =>
  match get_array vm b with Some (vl, b) =>
  match get_array dm b with Some (d, b) =>
  match get_array cm b with Some (c, b) =>
    Some ({| frac := f; sendto_max := sm; sendto_node := sn; sendto_line := sl;
             recvfrom_max := vm; recvfrom_node := vn; recvfrom_line := vl;
             reducefrom_max := dm; reducefrom := d; copyreducefrom_max := cm; copyreducefrom := c |}, b)
  | None => None end | None => None end | None => None end | None => None end | None => None end | None => None end
  | None => None end | None => None end | None => None end | None => None end | None => None end.
Section Loop.
  Context {A : Type} (get : bytes -> option (A * bytes)).
  (* for (i = 0; i < n; i++) *)
  Fixpoint get_many (n : nat) (b : bytes) : option (list A * bytes) :=
    match n with
    | O => Some ([], b)
    | S n => match get b with
             | Some (x, b) => match get_many n b with Some (l, r) => Some (x :: l, r) | None => None end
             | None => None
             end
    end.
End Loop.
(* 800-806 *)
Definition read_ablock (b : bytes) : option (ablock * bytes) :=
  match get_int b with
  | Some (n, b) => match get_many read_aline (Z.to_nat n) b with
                   | Some (l, b) => Some ({| num_lines := n; alines := l |}, b) | None => None end
  | None => None
  end.
(* 795-799; the result is the number of bytes read, here the rest of the buffer *)
Definition read_algo (b : bytes) : option (algo * bytes) :=
  match get_int b with
  | Some (n, b) => match get_many read_ablock (Z.to_nat n) b with
                   | Some (l, b) => Some ({| num_blocks := n; blocks := l |}, b) | None => None end
  | None => None
  end.
