From Verif Require Import Base BytesModel BytesProofs TextModel TextProofs LineModel LineSpec.
Local Open Scope Z_scope.
Local Ltac Zify.zify_post_hook ::= idtac.

(* ----- binary: the reader in terms of fields ----- *)
Fixpoint read_cells (n : Z) (types : list kind) (cs : list cell) : Z * list (option Z) :=
  match types, cs with
  | [], [] => (n, [])
  | [], _ => (0, [])
  | KStr :: ts, Str e :: cs => let (r, vs) := read_cells n ts cs in (r, Some e :: vs)
  | KNum :: ts, Num d :: cs => let (r, vs) := read_cells n ts cs in (r, Some d :: vs)
  | KStr :: _, _ => (-11, [Some enop])
  | KNum :: _, _ => (-11, [Some INT_MIN])
  end.

Lemma buffer_shift pre l i : line_buffer (pre ++ l) (length pre + i)%nat = line_buffer l i.
Proof. unfold line_buffer. rewrite app_nth2 by lia. f_equal. lia. Qed.
Lemma int_at_shift pre l i : int_at (line_buffer (pre ++ l)) (length pre + i) = int_at (line_buffer l) i.
Proof. unfold int_at. rewrite <- !Nat.add_assoc, !buffer_shift. reflexivity. Qed.
Lemma int_at_put v l : is_int v -> int_at (line_buffer (put_int v ++ l)) 0 = v.
Proof.
  intros H. assert (G := get_put_int v l H). unfold get_int, put_int, int_at, line_buffer in *. cbn in G |- *.
  rewrite Z.add_0_r in G. injection G as G. exact G.
Qed.
Lemma cell_length c : length (cell_bytes c) = 5%nat.
Proof. destruct c; reflexivity. Qed.
Lemma cells_length cs : length (flat_map cell_bytes cs) = (5 * length cs)%nat.
Proof. induction cs as [|c cs IH]; [reflexivity|]. cbn [flat_map length]. rewrite app_length, cell_length, IH. lia. Qed.
Lemma cell_int e : 0 <= e < 30 -> is_int e.
Proof. unfold is_int. lia. Qed.

Lemma read_bin_cells types : forall pre cs n, Forall cell_ok cs -> n = Z.of_nat (length pre) + 5 * Z.of_nat (length cs) ->
  read_bin types n (length pre) (line_buffer (pre ++ flat_map cell_bytes cs)) = read_cells n types cs.
Proof.
  induction types as [|t ts IH]; intros pre cs n H Hn.
  - cbn [read_bin read_cells]. destruct cs as [|c cs].
    + cbn in Hn. destruct (Z.eqb_spec (Z.of_nat (length pre)) n); [reflexivity|lia].
    + cbn in Hn. destruct (Z.eqb_spec (Z.of_nat (length pre)) n); [lia|]. destruct (Z.ltb_spec (Z.of_nat (length pre)) n); [reflexivity|lia].
  - destruct cs as [|c cs].
    + cbn [flat_map]. cbn [read_bin]. replace (line_buffer (pre ++ []) (length pre)) with 255.
      2:{ unfold line_buffer. rewrite nth_overflow; [reflexivity|rewrite app_length; cbn; lia]. }
      destruct t; reflexivity.
    + inversion H as [|c' cs' Hc Hcs]; subst c' cs'.
      assert (T : line_buffer (pre ++ flat_map cell_bytes (c :: cs)) (length pre) = match c with Str _ => 0 | Num _ => 1 end).
      { rewrite <- (Nat.add_0_r (length pre)), buffer_shift. destruct c; reflexivity. }
      assert (V : int_at (line_buffer (pre ++ flat_map cell_bytes (c :: cs))) (length pre + 1) = match c with Str e => e | Num d => d end).
      { rewrite int_at_shift. destruct c as [e|d].
        - change (flat_map cell_bytes (Str e :: cs)) with ([0] ++ (put_int e ++ flat_map cell_bytes cs)). change 1%nat with (length [0] + 0)%nat.
          rewrite int_at_shift. apply int_at_put. apply cell_int. exact Hc.
        - change (flat_map cell_bytes (Num d :: cs)) with ([1] ++ (put_int d ++ flat_map cell_bytes cs)). change 1%nat with (length [1] + 0)%nat.
          rewrite int_at_shift. apply int_at_put. exact Hc. }
      assert (R : read_bin ts n (length pre + 5) (line_buffer (pre ++ flat_map cell_bytes (c :: cs))) = read_cells n ts cs).
      { cbn [flat_map]. rewrite app_assoc. replace (length pre + 5)%nat with (length (pre ++ cell_bytes c)) by (rewrite app_length, cell_length; reflexivity).
        apply IH; [assumption|]. rewrite app_length, cell_length. cbn [length] in Hn. lia. }
      cbn [read_bin]. rewrite T, V, R. cbn [length] in Hn.
      destruct (Z.ltb_spec (Z.of_nat (length pre + 1)) n) as [L|L]; [|lia].
      destruct t, c; cbn; reflexivity.
Qed.
Lemma read_line_cells types cs : Forall cell_ok cs -> (length cs < 1000)%nat ->
  read_assembler_line types (line_buffer (line_bytes cs)) = read_cells (4 + 5 * Z.of_nat (length cs)) types cs.
Proof.
  intros H L. unfold read_assembler_line, line_bytes. rewrite int_at_put by (unfold is_int; lia).
  assert (X := read_bin_cells types (put_int (4 + 5 * Z.of_nat (length cs))) cs (4 + 5 * Z.of_nat (length cs)) H).
  rewrite put_int_length in X. apply X. lia.
Qed.
Lemma scan_cells {D} f (ptrs : list (Z -> D -> D)) cs d : Forall cell_ok cs -> (length cs < 1000)%nat ->
  scan f ptrs (line_buffer (line_bytes cs)) d =
  let (r, vs) := read_cells (4 + 5 * Z.of_nat (length cs)) (kinds f) cs in (r, store ptrs vs d).
Proof. intros H L. unfold scan. rewrite read_line_cells by assumption. reflexivity. Qed.

(* ----- send and receive lines ----- *)
Lemma place_cells t n o on off : place_ok t n o on off -> 0 <= t < 30 /\ is_int n /\ is_int on /\ is_int off.
Proof. unfold place_ok, buffer_type_ok. intros (A & B & C & D & _). split; [lia|]. split; [exact B|]. split; [exact C|exact D]. Qed.
Lemma write_irecv_isend_ok d : irecv_isend_ok d -> Forall cell_ok (write_irecv_isend d) /\ (length (write_irecv_isend d) <= 10)%nat.
Proof.
  intros (H1 & H2 & H3 & H4 & H5). apply place_cells in H2. destruct H2 as (A & B & C & E).
  unfold eirecv, eisen_ in H1. unfold write_irecv_isend.
  destruct (negb (i_buffer_type d =? eshmemo)); [|destruct (i_is_offset d =? 0)];
    (split; [|cbn; lia]); repeat (apply Forall_cons; [first [exact H3|exact H4|exact H5|exact B|exact C|exact E|cbn; unfold ecp, ecpbuffer_offseto; lia]|]); apply Forall_nil.
Qed.
Lemma irecv_round_trip d d0 : irecv_isend_ok d ->
  exists d', read_irecv_isend (line_buffer (line_bytes (write_irecv_isend d))) d0 = Some (1, d') /\ same_irecv_isend d' d.
Proof.
  intros H. destruct (write_irecv_isend_ok d H) as [W L]. destruct H as (H1 & (P1 & _ & _ & _ & P2 & P3) & _).
  remember (line_buffer (line_bytes (write_irecv_isend d))) as b eqn:Eb.
  assert (S : forall f ptrs (d1 : irecv_isend), scan f ptrs b d1 =
    let (r, vs) := read_cells (4 + 5 * Z.of_nat (length (write_irecv_isend d))) (kinds f) (write_irecv_isend d) in (r, store ptrs vs d1)).
  { intros. subst b. apply scan_cells; [assumption|lia]. }
  clear Eb. assert (Ty : negb ((i_type d =? eirecv) || (i_type d =? eirec_) || (i_type d =? eisend) || (i_type d =? eisen_)) = false).
  { unfold eirecv, eirec_, eisend, eisen_ in *. destruct (Z.eqb_spec (i_type d) 12), (Z.eqb_spec (i_type d) 13), (Z.eqb_spec (i_type d) 14), (Z.eqb_spec (i_type d) 15); cbn; try reflexivity. lia. }
  clear W L H1. destruct d as [ty bt bn io on off sz pa tg es]. cbn [i_type i_buffer_type i_buffer_number i_is_offset i_offset_number] in *.
  unfold write_irecv_isend in S. cbn [i_type i_buffer_type i_buffer_number i_is_offset i_offset_number i_offset i_size i_partner i_tag] in S.
  unfold read_irecv_isend.
  destruct (Z.eqb_spec bt eshmemo) as [->|N]; [destruct P3 as [[-> ->]| ->]|destruct (P2 N) as (-> & -> & ->); apply Z.eqb_neq in N];
    cbn [negb Z.eqb] in S; (eexists; split; [repeat (rewrite S; cbn -[scan]; try rewrite Ty; cbn -[scan]; try rewrite N; cbn -[scan]); reflexivity|reflexivity]).
Qed.

(* ----- copy and reduce lines ----- *)
Lemma write_memcpy_reduce_ok d : memcpy_reduce_ok d -> Forall cell_ok (write_memcpy_reduce d) /\ (length (write_memcpy_reduce d) <= 14)%nat.
Proof.
  intros (H1 & H2 & H3 & H4). apply place_cells in H2. destruct H2 as (A & B & C & E). apply place_cells in H3. destruct H3 as (A' & B' & C' & E').
  unfold ememcpy, esreduc_ in H1. unfold write_memcpy_reduce.
  destruct (negb (c_buffer_type1 d =? eshmemo)); [|destruct (c_is_offset1 d =? 0)];
  (destruct (negb (c_buffer_type2 d =? eshmemo)); [|destruct (c_is_offset2 d =? 0)]);
    (split; [|cbn; lia]); cbn [app];
    repeat (apply Forall_cons; [first [exact H4|exact B|exact C|exact E|exact B'|exact C'|exact E'|cbn; unfold ecp, ecpbuffer_offseto; lia]|]); apply Forall_nil.
Qed.
Lemma memcpy_round_trip d d0 : memcpy_reduce_ok d ->
  exists d', read_memcpy_reduce (line_buffer (line_bytes (write_memcpy_reduce d))) d0 = Some (1, d') /\ same_memcpy_reduce d' d.
Proof.
  intros H. destruct (write_memcpy_reduce_ok d H) as [W L]. destruct H as (H1 & (P1 & _ & _ & _ & P2 & P3) & (Q1 & _ & _ & _ & Q2 & Q3) & _).
  remember (line_buffer (line_bytes (write_memcpy_reduce d))) as b eqn:Eb.
  assert (S : forall f ptrs (d1 : memcpy_reduce), scan f ptrs b d1 =
    let (r, vs) := read_cells (4 + 5 * Z.of_nat (length (write_memcpy_reduce d))) (kinds f) (write_memcpy_reduce d) in (r, store ptrs vs d1)).
  { intros. subst b. apply scan_cells; [assumption|lia]. }
  clear Eb. assert (Ty : negb ((c_type d =? ememcpy) || (c_type d =? ememcp_) || (c_type d =? ereduce) || (c_type d =? ereduc_) ||
           (c_type d =? esmemcpy) || (c_type d =? esmemcp_) || (c_type d =? esreduce) || (c_type d =? esreduc_)) = false).
  { unfold ememcpy, ememcp_, ereduce, ereduc_, esmemcpy, esmemcp_, esreduce, esreduc_ in *.
    assert (c_type d = 4 \/ c_type d = 5 \/ c_type d = 6 \/ c_type d = 7 \/ c_type d = 8 \/ c_type d = 9 \/ c_type d = 10 \/ c_type d = 11) as X by lia.
    destruct X as [->|[->|[->|[->|[->|[->|[->| ->]]]]]]]; reflexivity. }
  clear W L H1. destruct d as [ty bt1 bn1 io1 on1 off1 bt2 bn2 io2 on2 off2 sz es es2].
  cbn [c_type c_buffer_type1 c_buffer_number1 c_is_offset1 c_offset_number1 c_buffer_type2 c_buffer_number2 c_is_offset2 c_offset_number2] in *.
  unfold write_memcpy_reduce in S. cbn [c_type c_buffer_type1 c_buffer_number1 c_is_offset1 c_offset_number1 c_offset1 c_buffer_type2 c_buffer_number2 c_is_offset2 c_offset_number2 c_offset2 c_size] in S.
  unfold read_memcpy_reduce.
  destruct (Z.eqb_spec bt1 eshmemo) as [->|N1]; [destruct P3 as [[-> ->]| ->]|destruct (P2 N1) as (-> & -> & ->); apply Z.eqb_neq in N1];
  (destruct (Z.eqb_spec bt2 eshmemo) as [->|N2]; [destruct Q3 as [[-> ->]| ->]|destruct (Q2 N2) as (-> & -> & ->); apply Z.eqb_neq in N2]);
  cbn [negb Z.eqb app] in S;
  (eexists; split; [repeat (rewrite S; cbn -[scan]; try rewrite Ty; cbn -[scan]; try rewrite N1; cbn -[scan]; try rewrite N2; cbn -[scan]); reflexivity|reflexivity]).
Qed.

(* ----- the stream of lines ----- *)
Lemma line_bytes_length cs : length (line_bytes cs) = (4 + 5 * length cs)%nat.
Proof. unfold line_bytes. rewrite app_length, put_int_length, cells_length. reflexivity. Qed.
Lemma read_line_bin_ok cs r : (length cs <= 19)%nat ->
  read_line_bin (line_bytes cs ++ r) = Some (Z.of_nat (4 + 5 * length cs), line_bytes cs, r).
Proof.
  intros L. unfold read_line_bin. unfold line_bytes at 1. rewrite <- app_assoc, get_put_int by (unfold is_int; lia).
  destruct (Z.ltb_spec 99 (4 + 5 * Z.of_nat (length cs))); [lia|].
  replace (Z.to_nat (4 + 5 * Z.of_nat (length cs))) with (length (line_bytes cs)) by (rewrite line_bytes_length; lia).
  rewrite firstn_app, skipn_app, firstn_all, skipn_all, Nat.sub_diag. cbn [firstn skipn app]. rewrite app_nil_r.
  f_equal. f_equal. f_equal. lia.
Qed.
Lemma read_line_long cs r : (20 <= length cs < 1000)%nat -> read_line_bin (line_bytes cs ++ r) = None.
Proof.
  intros L. unfold read_line_bin, line_bytes. rewrite <- app_assoc, get_put_int by (unfold is_int; lia).
  destruct (Z.ltb_spec 99 (4 + 5 * Z.of_nat (length cs))); [reflexivity|lia].
Qed.
Lemma read_lines_ok ls : forall fuel r, Forall (fun cs => (length cs <= 19)%nat) ls -> (length ls < fuel)%nat ->
  read_lines_bin fuel (flat_map line_bytes ls ++ eof_bytes ++ r) = Some (map line_bytes ls, r).
Proof.
  induction ls as [|cs ls IH]; intros fuel r H F; (destruct fuel as [|fuel]; [cbn in F; lia|]).
  - cbn [flat_map app read_lines_bin map]. unfold read_line_bin, eof_bytes. rewrite get_put_int by (unfold is_int; lia). reflexivity.
  - inversion H; subst. cbn [flat_map read_lines_bin map]. rewrite <- app_assoc, read_line_bin_ok by assumption.
    destruct (Z.eqb_spec (Z.of_nat (4 + 5 * length cs)) 0); [lia|]. rewrite IH; [reflexivity|assumption|cbn in F; lia].
Qed.

(* ----- ASCII ----- *)
Definition starts_word (c : ascii) : bool :=
  negb (is_space c) && negb (is_digit c) && negb (c =? "-")%char && negb (c =? "+")%char.
Definition name_ok (e : nat) : bool :=
  match nth e names [] with
  | [] => false
  | c :: r => starts_word c && forallb (fun c => negb (is_space c)) (c :: r) && (length (c :: r) <=? 99)%nat
  end && (read_assembler_type (nth e names []) =? Z.of_nat e).
Lemma names_ok : forallb name_ok (seq 0 30) = true.
Proof. vm_compute. reflexivity. Qed.
Lemma name_spec e : 0 <= e < 30 -> exists c r, nth (Z.to_nat e) names [] = c :: r /\ starts_word c = true /\
  Forall (fun c => is_space c = false) (c :: r) /\ (length (c :: r) <= 99)%nat /\ read_assembler_type (c :: r) = e.
Proof.
  intros H. assert (X := proj1 (forallb_forall name_ok (seq 0 30)) names_ok (Z.to_nat e) ltac:(apply in_seq; lia)).
  unfold name_ok in X. destruct (nth (Z.to_nat e) names []) as [|c r]; [discriminate|]. exists c, r.
  apply andb_true_iff in X. destruct X as [X1 X2]. apply andb_true_iff in X1. destruct X1 as [X1 X4]. apply andb_true_iff in X1. destruct X1 as [X1 X3].
  split; [reflexivity|]. split; [assumption|]. split; [|split].
  - apply Forall_forall. intros x Hx. apply (proj1 (forallb_forall _ _) X3) in Hx. apply negb_true_iff in Hx. assumption.
  - apply Nat.leb_le. assumption.
  - apply Z.eqb_eq in X2. rewrite X2. lia.
Qed.
Lemma scan_int_word c r : starts_word c = true -> scan_int (c :: r) = None.
Proof.
  unfold starts_word. rewrite !andb_true_iff, !negb_true_iff. intros [[[S D] M] P]. unfold scan_int. cbn [skip_while]. rewrite S.
  assert (X : scan_unsigned (c :: r) = None) by (unfold scan_unsigned; rewrite D; reflexivity).
  destruct c as [[] [] [] [] [] [] [] []]; try exact X; discriminate.
Qed.
(* what follows a field *)
Definition stops (u : text) : Prop := match u with c :: _ => c = " "%char \/ c = newline | [] => False end.
Lemma stops_space u : stops u -> match u with c :: _ => is_space c = true | [] => True end.
Proof. destruct u as [|c u]; [trivial|]. intros [->| ->]; reflexivity. Qed.
Lemma stops_token u : stops u -> match u with c :: _ => token_end c = true | [] => True end.
Proof. destruct u as [|c u]; [trivial|]. intros [->| ->]; reflexivity. Qed.
Lemma stops_digit u : stops u -> not_digit_head u.
Proof. destruct u as [|c u]; [contradiction|]. intros [->| ->]; exact eq_refl. Qed.
Lemma space_token c : is_space c = false -> token_end c = false.
Proof.
  intros H. unfold token_end. destruct (Ascii.eqb_spec c " "%char) as [->|]; [discriminate|].
  destruct (Ascii.eqb_spec c newline) as [->|]; [discriminate|]. reflexivity.
Qed.
Lemma num_char_space c : num_char c -> is_space c = false.
Proof. intros [H| ->]; [apply digit_not_space; assumption|reflexivity]. Qed.

Definition field_text (c : cell) : text := match c with Str e => nth (Z.to_nat e) names [] | Num d => print_int d end.
Lemma cell_text_eq c : cell_ok c -> cell_text c = " "%char :: field_text c.
Proof.
  destruct c as [e|d]; cbn; intros H; [|reflexivity].
  destruct (Z.leb_spec 0 e); [|lia]. destruct (Z.ltb_spec e 30); [reflexivity|lia].
Qed.
Lemma field_chars c : cell_ok c -> exists x r, field_text c = x :: r /\ Forall (fun c => is_space c = false) (x :: r).
Proof.
  destruct c as [e|d]; cbn [field_text cell_ok]; intros H.
  - destruct (name_spec e H) as (x & r & E & _ & F & _). exists x, r. split; assumption.
  - destruct (print_int_cons d) as (x & r & E & _). exists x, r. split; [assumption|]. rewrite <- E.
    eapply Forall_impl; [|apply print_int_chars]. intros a Ha. apply num_char_space. assumption.
Qed.
Lemma field_read c u : cell_ok c -> stops u ->
  match scan_int (field_text c ++ u) with
  | Some (j, _) => [Num j]
  | None => match scan_word (field_text c ++ u) with Some w => [Str (read_assembler_type w)] | None => [] end
  end = [c].
Proof.
  destruct c as [e|d]; cbn [field_text cell_ok]; intros H U.
  - destruct (name_spec e H) as (x & r & E & S & F & L & T). rewrite E. cbn [app]. rewrite scan_int_word by assumption.
    unfold scan_word. cbn [skip_while]. replace (is_space x) with false by (inversion F; congruence).
    change (x :: r ++ u) with ((x :: r) ++ u). rewrite break_app by (try assumption; apply stops_space; assumption).
    cbn [fst]. rewrite firstn_all2 by assumption. rewrite T. reflexivity.
  - rewrite scan_print_int by (apply stops_digit; assumption). reflexivity.
Qed.
Lemma tail_stops cs rest : Forall cell_ok cs -> stops (flat_map cell_text cs ++ newline :: rest).
Proof.
  intros H. destruct cs as [|c cs]; [right; reflexivity|]. inversion H; subst. cbn [flat_map]. rewrite cell_text_eq by assumption. left. reflexivity.
Qed.
Lemma read_line_ascii_ok cs : forall c fuel rest, Forall cell_ok (c :: cs) -> (length cs < fuel)%nat ->
  read_line_ascii fuel (line_text (c :: cs) ++ rest) = Some (c :: cs, rest).
Proof.
  induction cs as [|c' cs IH]; intros c fuel rest H F; (destruct fuel as [|fuel]; [lia|]); inversion H as [|? ? Hc Hcs]; subst.
  all: unfold line_text; cbn [flat_map]; rewrite cell_text_eq by assumption; rewrite <- !app_assoc; cbn [app].
  all: cbn [read_line_ascii skip_while is_blank Ascii.eqb Bool.eqb].
  all: destruct (field_chars c Hc) as (x & r & E & Fx).
  all: match goal with |- context [skip_while is_blank ?s] => replace (skip_while is_blank s) with s
         by (rewrite E; cbn [app skip_while]; replace (is_blank x) with false; [reflexivity|];
             inversion Fx; subst; symmetry; apply eqb_neq; intros ->; discriminate) end.
  - cbv zeta. rewrite field_read by (try assumption; right; reflexivity).
    rewrite break_app.
    + cbn. reflexivity.
    + rewrite E. eapply Forall_impl; [|exact Fx]. intros a Ha. apply space_token. assumption.
    + reflexivity.
  - assert (U := tail_stops (c' :: cs) rest Hcs). cbn [flat_map] in U. rewrite <- app_assoc in U.
    cbv zeta. rewrite field_read by assumption. rewrite break_app.
    + specialize (IH c' fuel rest Hcs ltac:(cbn in F; lia)). unfold line_text in IH. cbn [flat_map] in IH.
      rewrite <- !app_assoc in IH. inversion Hcs; subst. rewrite cell_text_eq in * by assumption. cbn [app snd] in *.
      cbn [is_blank Ascii.eqb Bool.eqb]. rewrite IH. reflexivity.
    + rewrite E. eapply Forall_impl; [|exact Fx]. intros a Ha. apply space_token. assumption.
    + apply stops_token. assumption.
Qed.
