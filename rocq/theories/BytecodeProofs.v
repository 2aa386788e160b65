From Verif Require Import Base BytesModel BytesProofs LineModel LineSpec LineProofs BytecodeModel BytecodeSpec.
Local Open Scope Z_scope.
Local Ltac Zify.zify_post_hook ::= idtac.

(* ----- memory ----- *)
Lemma store_bytes_get b : forall m a x,
  store_bytes m a b x = if (a <=? x) && (x <? a + Z.of_nat (length b)) then nth (Z.to_nat (x - a)) b 0 else m x.
Proof.
  induction b as [|y b IH]; intros m a x.
  - cbn [store_bytes length]. destruct (Z.leb_spec a x), (Z.ltb_spec x (a + Z.of_nat 0)); try reflexivity. lia.
  - cbn [store_bytes]. rewrite IH. cbn [length].
    destruct (Z.leb_spec (a + 1) x), (Z.ltb_spec x (a + 1 + Z.of_nat (length b))), (Z.leb_spec a x), (Z.ltb_spec x (a + Z.of_nat (S (length b))));
      cbn [andb]; try lia; unfold upd; try (destruct (Z.eq_dec x a)); try lia; try reflexivity.
    + replace (Z.to_nat (x - a)) with (S (Z.to_nat (x - (a + 1)))) by lia. reflexivity.
    + subst. rewrite Z.sub_diag. reflexivity.
Qed.
Lemma store_bytes_app b1 b2 : forall m a, store_bytes m a (b1 ++ b2) = store_bytes (store_bytes m a b1) (a + Z.of_nat (length b1)) b2.
Proof.
  induction b1 as [|x b1 IH]; intros m a; cbn [app store_bytes length].
  - f_equal. lia.
  - rewrite IH. f_equal. lia.
Qed.
Definition holds (m : memory) (a : Z) (b : bytes) : Prop :=
  forall i, (i < length b)%nat -> m (a + Z.of_nat i) = nth i b 0.
Lemma holds_app m a b1 b2 : holds m a (b1 ++ b2) -> holds m a b1 /\ holds m (a + Z.of_nat (length b1)) b2.
Proof.
  intros H. split; intros i Hi.
  - rewrite (H i) by (rewrite app_length; lia). apply app_nth1. assumption.
  - rewrite <- Z.add_assoc, <- Nat2Z.inj_add, H by (rewrite app_length; lia). rewrite app_nth2 by lia. f_equal. lia.
Qed.
Lemma holds_store m a b : holds (store_bytes m a b) a b.
Proof.
  intros i Hi. rewrite store_bytes_get. destruct (Z.leb_spec a (a + Z.of_nat i)); [|lia]. destruct (Z.ltb_spec (a + Z.of_nat i) (a + Z.of_nat (length b))); [|lia].
  cbn. f_equal. lia.
Qed.
Lemma holds_store_other m a b a' b' : holds m a b -> (a + Z.of_nat (length b) <= a' \/ a' + Z.of_nat (length b') <= a) ->
  holds (store_bytes m a' b') a b.
Proof.
  intros H D i Hi. rewrite store_bytes_get. destruct (Z.leb_spec a' (a + Z.of_nat i)), (Z.ltb_spec (a + Z.of_nat i) (a' + Z.of_nat (length b'))); cbn; try (apply H; assumption). lia.
Qed.
Lemma load_get k : forall m a b, (k <= length b)%nat -> holds m a b ->
  match get_le k b with Some (v, _) => load k m a = v | None => False end.
Proof.
  induction k as [|k IH]; intros m a b L H; cbn [get_le load]; [reflexivity|].
  destruct b as [|x b]; [cbn in L; lia|]. cbn in L.
  assert (H' : holds m (a + 1) b).
  { intros i Hi. assert (X := H (S i) ltac:(cbn; lia)). cbn [nth] in X. rewrite <- X. f_equal. lia. }
  specialize (IH m (a + 1) b ltac:(lia) H'). destruct (get_le k b) as [[v r]|]; [|contradiction].
  rewrite IH. assert (X := H O ltac:(cbn; lia)). cbn in X. rewrite Z.add_0_r in X. rewrite X. reflexivity.
Qed.
Lemma load_put k m a v r : holds m a (put_le k v ++ r) -> load k m a = v mod 2 ^ (8 * Z.of_nat k) /\ holds m (a + Z.of_nat k) r.
Proof.
  intros H. split.
  - assert (X := load_get k m a (put_le k v ++ r) ltac:(rewrite app_length, put_le_length; lia) H). rewrite get_put_le in X. exact X.
  - apply holds_app in H. rewrite put_le_length in H. apply H.
Qed.
Lemma load_put_char m a v r : is_char v -> holds m a (put_char v ++ r) -> load_char m a = v /\ holds m (a + 1) r.
Proof.
  intros V H. apply load_put in H. destruct H as [H1 H2]. split; [|exact H2]. unfold load_char. rewrite H1. apply signed_mod; [lia|exact V].
Qed.
Lemma load_put_int m a v r : is_int v -> holds m a (put_int v ++ r) -> load_int m a = v /\ holds m (a + 4) r.
Proof.
  intros V H. apply load_put in H. destruct H as [H1 H2]. split; [|exact H2]. unfold load_int. rewrite H1. apply signed_mod; [lia|exact V].
Qed.
Lemma load_put_pointer m a v r : is_pointer v -> holds m a (put_pointer v ++ r) -> load_pointer m a = v /\ holds m (a + 8) r.
Proof.
  intros V H. apply load_put in H. destruct H as [H1 H2]. split; [|exact H2]. unfold load_pointer. rewrite H1. apply Z.mod_small. exact V.
Qed.
Lemma put_le_mod k : forall v n, (k <= n)%nat -> put_le k (v mod 2 ^ (8 * Z.of_nat n)) = put_le k v.
Proof.
  induction k as [|k IH]; intros v n L; cbn [put_le]; [reflexivity|].
  destruct n as [|n]; [lia|].
  assert (E : 2 ^ (8 * Z.of_nat (S n)) = 256 * 2 ^ (8 * Z.of_nat n)).
  { replace (8 * Z.of_nat (S n)) with (8 + 8 * Z.of_nat n) by lia. rewrite Z.pow_add_r by lia. reflexivity. }
  assert (P : 0 < 2 ^ (8 * Z.of_nat n)) by (apply Z.pow_pos_nonneg; lia).
  rewrite E. rewrite Z.rem_mul_r by lia. f_equal.
  - rewrite Z.mul_comm, Z.mod_add by lia. apply Z.mod_mod. lia.
  - rewrite (Z.mul_comm 256), Z.div_add by lia. rewrite (Z.div_small (v mod 256)) by (apply Z.mod_pos_bound; lia).
    rewrite Z.add_0_l. apply IH. lia.
Qed.
Lemma put_pointer_mod v : put_pointer (v mod 2 ^ 64) = put_pointer v.
Proof. exact (put_le_mod 8 v 8 (le_n 8)). Qed.

(* ----- instructions ----- *)
Definition encode (i : instr) : bytes :=
  match i with
  | Return => put_char 0
  | Memcpy a b n => put_char 1 ++ put_pointer a ++ put_pointer b ++ put_int n
  | Irecv a n r q => put_char 2 ++ put_pointer a ++ put_int n ++ put_int r ++ put_pointer q
  | Isend a n r q => put_char 3 ++ put_pointer a ++ put_int n ++ put_int r ++ put_pointer q
  | Waitall n q => put_char 4 ++ put_int n ++ put_pointer q
  | Waitany n r q => put_char 14 ++ put_int n ++ put_int r ++ put_pointer q
  | Attached => put_char 15
  | SocketBarrier => put_char 5
  | NodeBarrier => put_char 6
  | AtomicSet n => put_char 7 ++ put_int n
  | AtomicWait n => put_char 8 ++ put_int n
  | Reduce o a b n => put_char 9 ++ put_char o ++ put_pointer a ++ put_pointer b ++ put_int n
  end.
Definition instr_ok (i : instr) : Prop :=
  match i with
  | Return | Attached | SocketBarrier | NodeBarrier => True
  | Memcpy a b n => is_pointer a /\ is_pointer b /\ is_int n
  | Irecv a n r q | Isend a n r q => is_pointer a /\ is_int n /\ is_int r /\ is_pointer q
  | Waitall n q => is_int n /\ is_pointer q
  | Waitany n r q => is_int n /\ is_int r /\ is_pointer q
  | AtomicSet n | AtomicWait n => is_int n
  | Reduce o a b n => is_char o /\ is_pointer a /\ is_pointer b /\ is_int n
  end.
Local Ltac step H :=
  lazymatch type of H with
  | holds _ _ (put_char _ ++ _) => let X := fresh "X" in apply load_put_char in H; [|try assumption; unfold is_char; lia]; destruct H as [X H]
  | holds _ _ (put_int _ ++ _) => let X := fresh "X" in apply load_put_int in H; [|assumption]; destruct H as [X H]
  | holds _ _ (put_pointer _ ++ _) => let X := fresh "X" in apply load_put_pointer in H; [|assumption]; destruct H as [X H]
  end.
Lemma fetch_ok m ip i r : instr_ok i -> holds m ip (encode i ++ r) ->
  fetch m ip = Some (i, ip + Z.of_nat (length (encode i))) /\ holds m (ip + Z.of_nat (length (encode i))) r.
Proof.
  intros K H. destruct i; cbn [encode instr_ok] in *; repeat match goal with K : _ /\ _ |- _ => destruct K end;
    rewrite <- ?app_assoc in H; repeat step H; rewrite ?app_length; unfold put_char, put_int, put_pointer; rewrite ?put_le_length; cbn [Nat.add].
  all: unfold fetch; cbv zeta; rewrite <- ?Z.add_assoc in *; cbn -[load_char load_int load_pointer holds] in *;
    repeat match goal with X : _ = _ |- _ => rewrite X; clear X end.
  all: split; [reflexivity|exact H].
Qed.
Lemma decode_ok l : forall fuel m ip p r, well_formed p l -> Forall instr_ok l -> (length l <= fuel)%nat ->
  holds m ip (flat_map encode l ++ r) -> decode fuel m ip p = Some l.
Proof.
  induction l as [|i l IH]; intros fuel m ip p r W K F H; [contradiction|].
  destruct fuel as [|fuel]; [cbn in F; lia|]. cbn in F. inversion K; subst.
  cbn [flat_map] in H. rewrite <- app_assoc in H. apply fetch_ok in H; [|assumption]. destruct H as [E H].
  cbn [decode well_formed] in *. rewrite E. destruct (0 <? p).
  - destruct i; try contradiction; (erewrite IH; [reflexivity|eassumption|assumption|lia|exact H]).
  - destruct i; try (erewrite IH; [reflexivity|eassumption|assumption|lia|exact H]). subst. reflexivity.
Qed.

(* ----- lines ----- *)
Lemma do_puts_real ps : forall m ip, fold_left (do_put false) ps (m, ip) =
  (store_bytes m ip (flat_map put_bytes ps), ip + Z.of_nat (length (flat_map put_bytes ps))).
Proof.
  induction ps as [|p ps IH]; intros m ip; cbn [fold_left flat_map].
  - cbn. rewrite Z.add_0_r. reflexivity.
  - unfold do_put at 2. cbn [fst snd]. rewrite IH, store_bytes_app, app_length.
    assert (E : Z.of_nat (length (put_bytes p)) = match p with PutChar _ => 1 | PutInt _ => 4 | PutPointer _ => 8 end).
    { destruct p; cbn [put_bytes]; unfold put_char, put_int, put_pointer; rewrite put_le_length; reflexivity. }
    rewrite <- E. f_equal. lia.
Qed.
Lemma do_puts_dry ps : forall m ip, fold_left (do_put true) ps (m, ip) = (m, ip + Z.of_nat (length (flat_map put_bytes ps))).
Proof.
  induction ps as [|p ps IH]; intros m ip; cbn [fold_left flat_map].
  - cbn. rewrite Z.add_0_r. reflexivity.
  - unfold do_put at 2. cbn [fst snd]. rewrite IH, app_length.
    assert (E : Z.of_nat (length (put_bytes p)) = match p with PutChar _ => 1 | PutInt _ => 4 | PutPointer _ => 8 end).
    { destruct p; cbn [put_bytes]; unfold put_char, put_int, put_pointer; rewrite put_le_length; reflexivity. }
    rewrite <- E. f_equal. lia.
Qed.

Lemma asm_cells_ok e a : asm_ok e a -> Forall cell_ok (asm_cells a) /\ (length (asm_cells a) <= 14)%nat.
Proof.
  destruct a; cbn [asm_ok asm_cells]; intros H.
  9: { destruct H as [H _]. apply write_irecv_isend_ok in H. split; [apply H|]. destruct H. lia. }
  9: { destruct H as [H _]. apply write_memcpy_reduce_ok in H. exact H. }
  all: (split; [|cbn; lia]); repeat constructor; cbn; try lia; try assumption; try (unfold is_int; lia); apply H.
Qed.
Lemma index_ok l i : 0 <= i < Z.of_nat (length l) -> index l i = Some (nth (Z.to_nat i) l 0).
Proof. intros H. unfold index. destruct (Z.leb_spec 0 i); [|lia]. apply nth_error_nth'. lia. Qed.
Lemma position_ok e t n o : in_shmem e t n -> exists p, position e t n o = Some p /\ p mod 2 ^ 64 = address e t n o.
Proof.
  unfold in_shmem, position, address, base_of, esendbufp, erecvbufp. intros [->|[->|[-> H]]]; cbn [Z.eqb Pos.eqb].
  - eexists; split; reflexivity.
  - eexists; split; reflexivity.
  - destruct (shmem e) as [s|].
    + rewrite index_ok by assumption. eexists; split; reflexivity.
    + eexists; split; [reflexivity|]. reflexivity.
Qed.
Lemma elements_ok op n : elements op n = Z.quot n (type_size op).
Proof.
  unfold elements, type_size, OPCODE_REDUCE_SUM_DOUBLE, OPCODE_REDUCE_SUM_LONG_INT, OPCODE_REDUCE_SUM_FLOAT, OPCODE_REDUCE_SUM_INT.
  destruct (Z.eqb_spec op 1), (Z.eqb_spec op 2), (Z.eqb_spec op 3), (Z.eqb_spec op 4); cbn; try reflexivity. symmetry. apply Z.quot_1_r.
Qed.
Lemma quot_int n op : is_int n -> is_int (Z.quot n (type_size op)).
Proof.
  unfold is_int. intros H. assert (P : 1 <= type_size op).
  { unfold type_size. destruct (_ || _); [lia|]. destruct (_ || _); lia. }
  generalize dependent (type_size op). intros t P.
  assert (X := Z.quot_rem' n t). assert (Y := Z.rem_bound_abs n t ltac:(lia)).
  destruct (Z_lt_le_dec n 0).
  - assert (0 <= Z.quot (- n) t <= - n).
    { split; [apply Z.quot_pos; lia|]. apply Z.quot_le_upper_bound; nia. }
    rewrite Z.quot_opp_l in * by lia. lia.
  - assert (0 <= Z.quot n t <= n).
    { split; [apply Z.quot_pos; lia|]. apply Z.quot_le_upper_bound; nia. }
    lia.
Qed.
Lemma pointer_mod v : is_pointer (v mod 2 ^ 64).
Proof. apply Z.mod_pos_bound. lia. Qed.
Lemma meaning_ok e a : env_ok e -> asm_ok e a -> Forall instr_ok (meaning e a).
Proof.
  intros (O & _ & G) H. assert (A : forall t n o, is_pointer (address e t n o)) by (intros; apply pointer_mod).
  destruct a; cbn [meaning asm_ok] in *.
  9: { destruct H as ((H1 & H2 & H3 & H4 & H5) & _ & _ & _ & H).
    assert (R : is_int (nth (Z.to_nat (i_partner d)) (global_ranks e) 0)).
    { rewrite Forall_forall in G. apply G. apply nth_In. lia. }
    constructor; [|constructor].
    destruct (i_type d =? eisend); (split; [apply A|]; split; [exact H3|]; split; [exact R|apply pointer_mod]). }
  9: { destruct H as ((H1 & H2 & H3 & H4) & _). destruct (_ || _); (constructor; [|constructor]).
    - split; [apply A|]. split; [apply A|exact H4].
    - split; [exact O|]. split; [apply A|]. split; [apply A|apply quot_int; exact H4]. }
  all: try (destruct (num_cores e =? 1)); try (destruct (count =? 0)); repeat constructor; try assumption; try (apply pointer_mod); try apply H.
Qed.

Lemma gen_line_ok e a v : asm_ok e a -> exists ps v', gen_line e (line_buffer (line_bytes (asm_cells a))) v = Some (ps, v') /\
  flat_map put_bytes ps = flat_map encode (meaning e a).
Proof.
  intros H. destruct (asm_cells_ok e a H) as [C L].
  assert (S : forall f ptrs (d : vars), scan f ptrs (line_buffer (line_bytes (asm_cells a))) d =
    let (r, vs) := read_cells (4 + 5 * Z.of_nat (length (asm_cells a))) (kinds f) (asm_cells a) in (r, store ptrs vs d)).
  { intros. apply scan_cells; [assumption|lia]. }
  assert (P := put_pointer_mod).
  remember (line_buffer (line_bytes (asm_cells a))) as b eqn:Eb.
  destruct a; unfold gen_line.
  1-8: rewrite S; cbn -[scan put_le line_buffer].
  1,6,7: eexists; eexists; split; reflexivity.
  1,2,5: unfold simple_puts; cbn; destruct (num_cores e =? 1); eexists; eexists; split; reflexivity.
  - unfold simple_puts; cbn. destruct (count =? 0); eexists; eexists; (split; [reflexivity|]); [reflexivity|]. cbn [flat_map put_bytes encode]. rewrite P. reflexivity.
  - rewrite S. cbn -[put_le line_buffer]. eexists; eexists; split; [reflexivity|]. cbn [flat_map put_bytes encode]. rewrite P. reflexivity.
  - destruct H as (H1 & H0 & H2 & H3 & H4).
    assert (T : exists v', snd (scan (txt "sd") [sv_s1; sv_i1] b v) = v' /\ v_s1 v' = i_type d /\ v_msg v' = v_msg v).
    { rewrite S. cbn [asm_cells]. unfold write_irecv_isend. destruct (negb _); [|destruct (_ =? 0)]; cbn; eexists; repeat split; reflexivity. }
    destruct T as (v' & T1 & T2 & T3).
    destruct (scan (txt "sd") [sv_s1; sv_i1] b v) as [r v'']. cbn in T1. subst v''. rewrite T2.
    replace (i_type d =? ewaitany) with false by (destruct H2 as [-> | ->]; reflexivity).
    replace ((i_type d =? eisend) || (i_type d =? eirecv)) with true by (destruct H2 as [-> | ->]; reflexivity).
    destruct (irecv_round_trip d (v_msg v') H1) as (d' & R & E). cbn [asm_cells] in Eb. rewrite <- Eb in R. rewrite R.
    unfold same_irecv_isend, si_estring in E. injection E. intros E9 E8 E7 E6 E5 E4 E3 E2 E1.
    unfold message_puts. rewrite E1, E2, E3, E6, E7, E8, E9.
    destruct (position_ok e (i_buffer_type d) (i_buffer_number d) (i_offset d) H3) as (p & -> & Ep).
    rewrite index_ok by assumption. eexists; eexists; split; [reflexivity|].
    cbn [flat_map put_bytes meaning]. rewrite <- Ep.
    destruct (i_type d =? eisend); cbn [encode]; rewrite !P; rewrite <- ?app_assoc; reflexivity.
  - destruct H as (H1 & _ & _ & H2 & H3 & H4).
    assert (T : exists v', snd (scan (txt "sd") [sv_s1; sv_i1] b v) = v' /\ v_s1 v' = c_type d /\ v_copy v' = v_copy v).
    { rewrite S. cbn [asm_cells]. unfold write_memcpy_reduce.
      repeat (match goal with |- context [if ?x then _ else _] => destruct x end); cbn; eexists; repeat split; reflexivity. }
    destruct T as (v' & T1 & T2 & T3).
    destruct (scan (txt "sd") [sv_s1; sv_i1] b v) as [r v'']. cbn in T1. subst v''. rewrite T2.
    replace (c_type d =? ewaitany) with false by (destruct H2 as [-> | [-> | [-> | ->]]]; reflexivity).
    replace ((c_type d =? eisend) || (c_type d =? eirecv)) with false by (destruct H2 as [-> | [-> | [-> | ->]]]; reflexivity).
    replace ((c_type d =? ememcpy) || (c_type d =? ereduce) || (c_type d =? esreduce) || (c_type d =? esmemcpy)) with true
      by (destruct H2 as [-> | [-> | [-> | ->]]]; reflexivity).
    destruct (memcpy_round_trip d (v_copy v') H1) as (d' & R & E). cbn [asm_cells] in Eb. rewrite <- Eb in R. rewrite R.
    unfold same_memcpy_reduce, sc_estring, sc_estring2 in E. injection E. intros E12 E11 E10 E9 E8 E7 E6 E5 E4 E3 E2 E1.
    unfold copy_puts. rewrite E1, E2, E3, E6, E7, E8, E11, E12.
    destruct (position_ok e (c_buffer_type1 d) (c_buffer_number1 d) (c_offset1 d) H3) as (p1 & -> & Ep1).
    destruct (position_ok e (c_buffer_type2 d) (c_buffer_number2 d) (c_offset2 d) H4) as (p2 & -> & Ep2).
    eexists; eexists; split; [reflexivity|].
    cbn [meaning]. rewrite <- Ep1, <- Ep2, elements_ok.
    destruct ((c_type d =? ememcpy) || (c_type d =? esmemcpy)); cbn [flat_map put_bytes encode]; rewrite !P; rewrite <- ?app_assoc; reflexivity.
Qed.

Lemma gen_lines_ok e p : forall fuel v m ip r, Forall (asm_ok e) p -> (length p < fuel)%nat ->
  let code := flat_map encode (flat_map (meaning e) p) in
  gen_lines fuel false e (stream p ++ r) v (m, ip) = Some (store_bytes m ip code, ip + Z.of_nat (length code)) /\
  gen_lines fuel true e (stream p ++ r) v (m, ip) = Some (m, ip + Z.of_nat (length code)).
Proof.
  unfold stream.
  induction p as [|a p IH]; intros fuel v m ip r H F; (destruct fuel as [|fuel]; [cbn in F; lia|]).
  - cbn [flat_map app gen_lines]. unfold read_line_bin, eof_bytes. rewrite get_put_int by (unfold is_int; lia).
    cbn [Z.leb Z.ltb Z.compare]. cbn. rewrite Z.add_0_r. split; reflexivity.
  - inversion H as [|? ? Ha Hp]; subst. cbn [flat_map]. rewrite <- !app_assoc. cbn [gen_lines].
    destruct (asm_cells_ok e a Ha) as [_ L].
    rewrite read_line_bin_ok by lia.
    destruct (Z.leb_spec (Z.of_nat (4 + 5 * length (asm_cells a))) 0); [lia|].
    destruct (gen_line_ok e a v Ha) as (ps & v' & E & Eb). rewrite E, do_puts_real, do_puts_dry, Eb.
    rewrite flat_map_app, store_bytes_app, app_length, Nat2Z.inj_add, Z.add_assoc. rewrite app_assoc. cbn in F.
    split; [apply IH|apply (IH fuel v' m _ r)]; try assumption; lia.
Qed.
Lemma encode_length e0 e a : same_shape e0 e ->
  length (flat_map encode (meaning e0 a)) = length (flat_map encode (meaning e a)).
Proof.
  intros (N & _). destruct a; cbn [meaning]; rewrite ?N; try (destruct (_ =? _)); try (destruct (_ || _)); cbn [flat_map encode]; rewrite ?app_length; unfold put_char, put_int, put_pointer; rewrite ?put_le_length; reflexivity.
Qed.
Lemma program_length e0 e p : same_shape e0 e ->
  length (flat_map encode (flat_map (meaning e0) p)) = length (flat_map encode (flat_map (meaning e) p)).
Proof.
  intros S. induction p as [|a p IH]; [reflexivity|]. cbn [flat_map]. rewrite !flat_map_app, !app_length, IH, (encode_length e0 e a S). reflexivity.
Qed.
Definition code_size (e : env) (p : list asm) : Z :=
  Z.of_nat (header_size e) + Z.of_nat (length (flat_map encode (flat_map (meaning e) p))) +
  Z.of_nat (length (comm_row e)) + Z.of_nat (length (comm_column e)).
Lemma null_asm_ok e a : asm_ok e a -> asm_ok (null_locmem e) a.
Proof. destruct a; exact (fun x => x). Qed.
Lemma dry_size e p : forall fuel v m a r, Forall (asm_ok e) p -> (length p < fuel)%nat ->
  generate fuel true e (stream p ++ r) v a m = Some (m, code_size e p).
Proof.
  intros fuel v m a r H F. unfold generate.
  rewrite (proj2 (gen_lines_ok (null_locmem e) p fuel v m (a + Z.of_nat (header_size (null_locmem e))) r
    ltac:(eapply Forall_impl; [|exact H]; apply null_asm_ok) F)).
  f_equal. f_equal. unfold code_size. rewrite (program_length (null_locmem e) e p) by (repeat split). cbn. lia.
Qed.
Lemma real_size e p : forall fuel v m a r, Forall (asm_ok e) p -> (length p < fuel)%nat -> (12 <= header_size e)%nat ->
  exists m', generate fuel false e (stream p ++ r) v a m = Some (m', code_size e p) /\
    (forall x, x < a \/ a + code_size e p <= x -> m' x = m x) /\
    let h := a + Z.of_nat (header_size e) in let ret := h + Z.of_nat (length (flat_map encode (flat_map (meaning e) p))) in
    holds m' h (flat_map encode (flat_map (meaning e) p)) /\
    load_int m' a = signed 4 ((ret - a) mod 2 ^ 32) /\ load_int m' (a + 4) = 1 /\ load_int m' (a + 8) = 1 /\
    holds m' ret (comm_row e) /\ holds m' (ret + Z.of_nat (length (comm_row e))) (comm_column e).
Proof.
  intros fuel v m a r H F Hh. unfold generate.
  set (m1 := store_bytes (store_bytes m (a + 4) (put_int 1)) (a + 8) (put_int 1)).
  rewrite (proj1 (gen_lines_ok e p fuel v m1 (a + Z.of_nat (header_size e)) r H F)).
  unfold code_size. set (code := flat_map encode (flat_map (meaning e) p)). cbv zeta.
  set (h := a + Z.of_nat (header_size e)). set (ret := h + Z.of_nat (length code)).
  set (c2 := ret + Z.of_nat (length (comm_row e))).
  set (m2 := store_bytes m1 h code). set (m3 := store_bytes m2 a (put_int (ret - a))). set (m4 := store_bytes m3 ret (comm_row e)).
  exists (store_bytes m4 c2 (comm_column e)). split; [f_equal; f_equal; unfold c2, ret, h; lia|].
  assert (L4 : forall x, length (put_int x) = 4%nat) by (intros; apply put_int_length).
  split.
  { intros x Hx. unfold m4, m3, m2, m1. rewrite !store_bytes_get, !L4.
    repeat match goal with |- context [(?u <=? x) && (x <? ?w)] =>
      replace ((u <=? x) && (x <? w)) with false
        by (symmetry; apply andb_false_iff; rewrite Z.leb_gt, Z.ltb_ge; unfold c2, ret, h in *; lia) end. reflexivity. }
  assert (S4 : forall M x, holds (store_bytes M x (put_int 1)) x (put_int 1)) by (intros; apply holds_store).
  split; [|split; [|split; [|split; [|split]]]].
  - apply holds_store_other; [|unfold c2, ret, h; lia]. apply holds_store_other; [|unfold c2, ret, h; lia].
    apply holds_store_other; [|rewrite L4; unfold c2, ret, h; lia]. apply holds_store.
  - assert (X : holds (store_bytes m4 c2 (comm_column e)) a (put_int (ret - a))).
    { apply holds_store_other; [|rewrite L4; unfold c2, ret, h; lia]. apply holds_store_other; [|rewrite L4; unfold c2, ret, h; lia]. apply holds_store. }
    rewrite <- (app_nil_r (put_int _)) in X. apply load_put in X. unfold load_int. rewrite (proj1 X). reflexivity.
  - assert (X : holds (store_bytes m4 c2 (comm_column e)) (a + 4) (put_int 1)).
    { apply holds_store_other; [|rewrite L4; unfold c2, ret, h; lia]. apply holds_store_other; [|rewrite L4; unfold c2, ret, h; lia].
      apply holds_store_other; [|rewrite !L4; lia]. apply holds_store_other; [|rewrite L4; unfold c2, ret, h; lia].
      apply holds_store_other; [|rewrite !L4; lia]. apply holds_store. }
    rewrite <- (app_nil_r (put_int _)) in X. apply load_put_int in X; [|unfold is_int; lia]. apply X.
  - assert (X : holds (store_bytes m4 c2 (comm_column e)) (a + 8) (put_int 1)).
    { apply holds_store_other; [|rewrite L4; unfold c2, ret, h; lia]. apply holds_store_other; [|rewrite L4; unfold c2, ret, h; lia].
      apply holds_store_other; [|rewrite !L4; lia]. apply holds_store_other; [|rewrite L4; unfold c2, ret, h; lia]. apply holds_store. }
    rewrite <- (app_nil_r (put_int _)) in X. apply load_put_int in X; [|unfold is_int; lia]. apply X.
  - apply holds_store_other; [|unfold c2, ret, h; lia]. apply holds_store.
  - apply holds_store.
Qed.
