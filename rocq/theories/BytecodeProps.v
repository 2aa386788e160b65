(* Claim C09: generation and decoding of byte code. *)
From Verif Require Import Base BytesModel BytesProofs LineModel LineSpec BytecodeModel BytecodeSpec BytecodeProofs.
Local Open Scope Z_scope.

(* The dry run (with the addresses e0 known then) stores nothing and computes a
   size; the second run (with the addresses e) stores inside of that size only and
   returns it, too. *)
Theorem C09_size :
  forall e0 e p fuel v0 v a0 a m0 m r,
  same_shape e0 e -> env_ok e -> Forall (asm_ok e0) p -> Forall (asm_ok e) p -> (length p < fuel)%nat ->
  exists size m',
    generate fuel true e0 (stream p ++ r) v0 a0 m0 = Some (m0, size) /\
    generate fuel false e (stream p ++ r) v a m = Some (m', size) /\
    forall x, x < a \/ a + size <= x -> m' x = m x.
Proof.
  intros e0 e p fuel v0 v a0 a m0 m r S (_ & K & _) H0 H F. exists (code_size e p).
  destruct (real_size e p fuel v m a r H F K) as (m' & E & U & _). exists m'. split; [|split; assumption].
  rewrite (dry_size e0 p fuel v0 m0 a0 r H0 F). f_equal. f_equal. unfold code_size.
  rewrite (program_length e0 e p S). destruct S as (_ & S1 & S2 & S3). rewrite S1, S2, S3. reflexivity.
Qed.
Print Assumptions C09_size.

(* The executor, started behind the header, meets exactly the instructions of the
   lines, with their operands, up to RETURN. *)
Theorem C09_decoded :
  forall e p fuel v a m r m' size,
  env_ok e -> Forall (asm_ok e) p -> (length p < fuel)%nat -> well_formed 0 (flat_map (meaning e) p) ->
  generate fuel false e (stream p ++ r) v a m = Some (m', size) ->
  forall fuel', (length (flat_map (meaning e) p) <= fuel')%nat ->
  decode fuel' m' (a + Z.of_nat (header_size e)) 0 = Some (flat_map (meaning e) p).
Proof.
  intros e p fuel v a m r m' size K H F W G fuel' F'.
  destruct (real_size e p fuel v m a r H F ltac:(apply K)) as (m2 & E & _ & X & _). rewrite E in G. injection G as <- <-.
  apply (decode_ok _ fuel' m2 _ 0 [] W); [|assumption|rewrite app_nil_r; exact X].
  apply Forall_flat_map. eapply Forall_impl; [|exact H]. intros x Hx. apply meaning_ok; assumption.
Qed.
Print Assumptions C09_decoded.

(* The header: where the code ends and the communicators begin, the barrier
   counters; the communicators. *)
Theorem C09_header :
  forall e p fuel v a m r m' size,
  env_ok e -> Forall (asm_ok e) p -> (length p < fuel)%nat -> size < 2 ^ 31 ->
  generate fuel false e (stream p ++ r) v a m = Some (m', size) ->
  let ret := load_int m' a in
  ret + Z.of_nat (length (comm_row e)) + Z.of_nat (length (comm_column e)) = size /\
  load_int m' (a + 4) = 1 /\ load_int m' (a + 8) = 1 /\
  (forall i, (i < length (comm_row e))%nat -> m' (a + ret + Z.of_nat i) = nth i (comm_row e) 0) /\
  (forall i, (i < length (comm_column e))%nat -> m' (a + ret + Z.of_nat (length (comm_row e)) + Z.of_nat i) = nth i (comm_column e) 0).
Proof.
  intros e p fuel v a m r m' size K H F Hs G.
  destruct (real_size e p fuel v m a r H F ltac:(apply K)) as (m2 & E & _ & _ & R & C1 & C2 & X & Y). rewrite E in G. injection G as <- <-.
  assert (Er : load_int m2 a = Z.of_nat (header_size e) + Z.of_nat (length (flat_map encode (flat_map (meaning e) p)))).
  { rewrite R. replace (a + _ + _ - a) with (Z.of_nat (header_size e) + Z.of_nat (length (flat_map encode (flat_map (meaning e) p)))) by lia.
    apply (signed_mod 4); [lia|]. unfold code_size in Hs. change (2 ^ (8 * Z.of_nat 4 - 1)) with (2 ^ 31). lia. }
  cbv zeta. rewrite Er. split; [reflexivity|]. split; [exact C1|]. split; [exact C2|].
  rewrite !Z.add_assoc. split; intros i Hi; [apply X|apply Y]; assumption.
Qed.
Print Assumptions C09_header.

(* Not covered by the claim: what the translation may assume is needed.  An operand
   inside of the requests (LOCMEM, buffer number -1) reads in front of the table of
   the shared memory segments. *)
Theorem C09_locmem_operand_refuted :
  forall e d v s, memcpy_reduce_ok d -> c_type d = ememcpy -> c_buffer_type1 d = elocmemp -> shmem e = Some s ->
  gen_line e (line_buffer (line_bytes (write_memcpy_reduce d))) v = None.
Proof.
  intros e d v s H T B S.
  assert (X := LineProofs.write_memcpy_reduce_ok d H). destruct X as [W L].
  assert (N : c_buffer_number1 d = -1).
  { destruct H as (_ & (_ & _ & _ & _ & P & _) & _). apply P. rewrite B. discriminate. }
  unfold gen_line.
  assert (Q : v_s1 (snd (scan (txt "sd") [sv_s1; sv_i1] (line_buffer (line_bytes (write_memcpy_reduce d))) v)) = c_type d).
  { rewrite LineProofs.scan_cells by (try assumption; lia). unfold write_memcpy_reduce.
    repeat (match goal with |- context [if ?x then _ else _] => destruct x end); reflexivity. }
  destruct (scan (txt "sd") [sv_s1; sv_i1] _ v) as [i v']. cbn [snd] in Q. rewrite Q, T. cbn [Z.eqb Pos.eqb orb ememcpy ewaitany eisend eirecv].
  destruct (LineProofs.memcpy_round_trip d (v_copy v') H) as (d' & R & E). rewrite R.
  unfold same_memcpy_reduce, sc_estring, sc_estring2 in E. injection E. intros E12 E11 E10 E9 E8 E7 E6 E5 E4 E3 E2 E1.
  unfold copy_puts. rewrite E2, E3, B, N. unfold position, index. rewrite S. reflexivity.
Qed.
Print Assumptions C09_locmem_operand_refuted.

(* An exchange with one partner, the reduction attached to its arrival. *)
Definition ex_env : env :=
  {| num_cores := 2; sendbuf := 4096; recvbuf := 8192; shmem := Some [65536; 131072]; locmem := 20000; reduction_op := 1;
     global_ranks := [0; 7; 9]; size_request := 8; header_size := 96; comm_row := [1; 2; 3; 4]; comm_column := [0; 0; 0; 0] |}.
Definition msg t off n partner tag :=
  {| i_type := t; i_buffer_type := eshmemo; i_buffer_number := 0; i_is_offset := 0; i_offset_number := -1; i_offset := off;
     i_size := n; i_partner := partner; i_tag := tag; i_estring := 0 |}.
Definition cpy t bt1 bn1 off1 bt2 bn2 off2 n :=
  {| c_type := t; c_buffer_type1 := bt1; c_buffer_number1 := bn1; c_is_offset1 := 0; c_offset_number1 := -1; c_offset1 := off1;
     c_buffer_type2 := bt2; c_buffer_number2 := bn2; c_is_offset2 := 0; c_offset_number2 := -1; c_offset2 := off2; c_size := n; c_estring := 0; c_estring2 := 0 |}.
Definition ex_asm : list asm :=
  [ACopy (cpy ememcpy eshmemo 0 0 esendbufp (-1) 0 800); ASet 0; AWait 1; AMessage (msg eirecv 800 800 2 0); AMessage (msg eisend 0 800 2 1);
   AWaitany 2 1 elocmemp 0; ACopy (cpy ereduce eshmemo 0 0 eshmemo 0 800 800); AAttached; AAttached; AWaitall 0; ANode; ASocket;
   ACopy (cpy ememcpy erecvbufp (-1) 0 eshmemo 1 0 800); AReturn].
Example C09_example : env_ok ex_env /\ Forall (asm_ok ex_env) ex_asm /\ well_formed 0 (flat_map (meaning ex_env) ex_asm) /\
  flat_map (meaning ex_env) ex_asm =
    [Memcpy 65536 4096 800; AtomicSet 0; AtomicWait 1; Irecv 66336 800 9 20000; Isend 65536 800 9 20008;
     Waitany 2 1 20000; Reduce 1 65536 66336 100; Attached; Attached; NodeBarrier; SocketBarrier; Memcpy 8192 131072 800; Return].
Proof.
  split; [|split; [|split; reflexivity]].
  - split; [unfold is_char; cbn; lia|]. split; [cbn; lia|]. repeat constructor; unfold is_int; lia.
  - unfold ex_asm, asm_ok, memcpy_reduce_ok, irecv_isend_ok, place_ok, buffer_type_ok, in_shmem, is_int, cpy, msg, eshmemo, esendbufp, erecvbufp, elocmemp, ememcpy, ereduce, esreduc_, esreduce, esmemcpy, eirecv, eisend, eisen_.
    repeat match goal with |- Forall _ _ => constructor | |- _ /\ _ => split end; cbn -[Z.pow];
      try exact I; try (intros Q; repeat split; try reflexivity; exfalso; apply Q; reflexivity); lia.
Qed.
Definition size_of (o : option (memory * Z)) : Z := match o with Some (_, s) => s | None => -1 end.
Definition decoded_of (o : option (memory * Z)) : option (list instr) := match o with Some (m, _) => decode 20 m 1096 0 | None => None end.
Definition no_vars := {| v_s1 := 0; v_s2 := 0; v_i1 := 0; v_i2 := 0; v_i3 := 0; v_msg := msg 0 0 0 0 0; v_copy := cpy 0 0 0 0 0 0 0 0 |}.
Example C09_example_run :
  size_of (generate 20 true ex_env (stream ex_asm) no_vars 0 (fun _ => 0)) = 96 + (21 + 5 + 5 + 25 + 25 + 17 + 22 + 1 + 1 + 1 + 1 + 21 + 1) + 8 /\
  decoded_of (generate 20 false ex_env (stream ex_asm) no_vars 1000 (fun _ => 0)) = Some (flat_map (meaning ex_env) ex_asm).
Proof. split; vm_compute; reflexivity. Qed.
