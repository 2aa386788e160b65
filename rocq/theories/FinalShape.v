(* The code generated from a block has the shape that the passes expect. *)
From Verif Require Import Base SchedModel SchedSpec RawModel MsgProofs RawCode RawStage FinalModel FinalPass FinalMerge.
Local Ltac Zify.zify_post_hook ::= idtac.

Lemma map_flat base {A} (f : A -> list instr) l : map (flat_instr base) (flat_map f l) = flat_map (fun x => map (flat_instr base) (f x)) l.
Proof. induction l as [|x l IH]; cbn [flat_map map]; [reflexivity|]. now rewrite map_app, IH. Qed.
Lemma fold_plus l : forall a, fold_left Nat.add l a = a + sum l.
Proof. induction l as [|x l IH]; cbn [fold_left sum]; intros a; [lia|]. rewrite IH. lia. Qed.
Lemma sum_positive l : sum (filter (fun n => negb (n =? 0)) l) = sum l.
Proof. induction l as [|x l IH]; cbn [filter sum]; auto. destruct (Nat.eqb_spec x 0); cbn [negb sum]; lia. Qed.

Section Block.
  Context (size_of : nat -> nat) (N q : nat) (b : block).
  Local Notation lsize := (line_size size_of b).
  Local Notation lstart := (line_start size_of b).
  Local Notation rsize := (recv_size size_of q b).
  Local Notation fstart p := (first_start size_of q b p (seq 0 (num_lines b)) 0).
  Local Notation fromn := (from_node N q).
  Local Notation ton := (to_node N q).

  Lemma lstart_S n : lstart (S n) = lstart n + lsize n.
  Proof. unfold line_start. rewrite seq_S, fold_left_app. reflexivity. Qed.

  (* the messages *)
  Definition in_of (o : nat) : list msg :=
    if rsize (fromn o) =? 0 then [] else [Msg (fromn o) (rsize (fromn o)) (fstart (fromn o))].
  Definition out_of (o : nat) : list (msg * list nat) :=
    if ssize size_of q b (ton o) =? 0 then []
    else [(Msg (ton o) (ssize size_of q b (ton o)) (lstart (hd 0 (slines q b (ton o)))),
           filter (fun n => negb (n =? 0)) (map lsize (slines q b (ton o))))].
  Definition exch_of : exch :=
    Exch (flat_map in_of (seq 0 N)) (flat_map out_of (seq 0 N)) (reduces size_of b).

  (* ---------- packing ---------- *)
  Fixpoint pieces (c add : nat) (ns : list nat) : list instr :=
    match ns with
    | [] => []
    | n :: r => (if lsize n =? 0 then [] else [Memcpy (Shm c, add) (Shm 0, lstart n) (lsize n)]) ++ pieces c (add + lsize n) r
    end.
  Lemma pieces_app c ns : forall add ns', pieces c add (ns ++ ns') = pieces c add ns ++ pieces c (add + sum (map lsize ns)) ns'.
  Proof.
    induction ns as [|n ns IH]; intros add ns'; cbn [app pieces map sum]; [now rewrite Nat.add_0_r|].
    rewrite IH, <- app_assoc. do 3 f_equal. lia.
  Qed.
  Lemma pack_entries_eq p n c es : forall add, pack_entries size_of q b p n c es add =
    (pieces c add (map (fun _ => n) (filter (fun e => is_node p e && negb (p =? q)) es)),
     add + sum (map lsize (map (fun _ => n) (filter (fun e => is_node p e && negb (p =? q)) es)))).
  Proof.
    induction es as [|e es IH]; intros add; cbn [pack_entries filter]; [cbn; f_equal; lia|].
    destruct (is_node p e && negb (p =? q)); [|apply IH]. rewrite IH. cbn [map pieces sum]. f_equal. lia.
  Qed.
  Lemma pack_lines_eq p c ns : forall add, pack_lines size_of q b p c ns add =
    (pieces c add (slines_in q b p ns), add + sum (map lsize (slines_in q b p ns))).
  Proof.
    induction ns as [|n ns IH]; intros add; cbn [pack_lines]; [cbn; f_equal; lia|].
    rewrite pack_entries_eq, IH. unfold slines_in. cbn [flat_map]. rewrite pieces_app, map_app, sum_app. f_equal. lia.
  Qed.
  Lemma pieces_chain (base : nat -> nat) c k : base 0 = 0 -> forall a add,
    map (flat_instr base) (pieces c add (seq a k)) =
    chain (base c + add) (lstart a) (filter (fun n => negb (n =? 0)) (map lsize (seq a k))).
  Proof.
    intros B0. induction k as [|k IH]; intros a add; [reflexivity|]. cbn [seq pieces map filter].
    rewrite map_app, IH, lstart_S. destruct (Nat.eqb_spec (lsize a) 0) as [Z|Z]; cbn [negb map app].
    - rewrite Z, !Nat.add_0_r. reflexivity.
    - unfold flat_instr, flat. cbn [fst snd chain]. rewrite B0. unfold sm. cbn [Nat.add].
      rewrite Nat.add_assoc. reflexivity.
  Qed.

  Context (base : nat -> nat) (B0 : base 0 = 0).
  Lemma receives_shape os : forall c, map (flat_instr base) (receives size_of N q b os c) = stage_in base c (flat_map in_of os).
  Proof.
    induction os as [|o os IH]; intros c; [reflexivity|]. cbn [receives flat_map]. unfold in_of at 1.
    destruct (rsize (fromn o) =? 0); [apply IH|]. cbn [map app stage_in msize mpeer]. rewrite IH.
    unfold flat_instr, flat, sm. cbn [fst snd]. now rewrite Nat.add_0_r.
  Qed.
  Lemma receives_number os : forall c, length (receives size_of N q b os c) = length (flat_map in_of os).
  Proof.
    induction os as [|o os IH]; intros c; [reflexivity|]. cbn [receives flat_map]. unfold in_of at 1.
    destruct (rsize (fromn o) =? 0); cbn [app length]; now rewrite IH.
  Qed.
  Context (SENT : forall o, exists a k, slines q b (ton o) = seq a k).
  Lemma sends_shape os : forall c, map (flat_instr base) (sends size_of N q b os c) = stage_out base c (flat_map out_of os).
  Proof.
    induction os as [|o os IH]; intros c; [reflexivity|]. cbn [sends flat_map]. rewrite pack_lines_eq. unfold out_of at 1.
    change (slines_in q b (ton o) (seq 0 (num_lines b))) with (slines q b (ton o)).
    change (0 + sum (map lsize (slines q b (ton o)))) with (ssize size_of q b (ton o)).
    destruct (SENT o) as (a & k & E).
    assert (P : map (flat_instr base) (pieces c 0 (slines q b (ton o))) =
                chain (base c) (lstart (hd 0 (slines q b (ton o)))) (filter (fun n => negb (n =? 0)) (map lsize (slines q b (ton o))))).
    { rewrite E. rewrite pieces_chain by exact B0. rewrite Nat.add_0_r. destruct k; reflexivity. }
    rewrite map_app, P. destruct (Nat.eqb_spec (ssize size_of q b (ton o)) 0) as [Z|Z].
    - rewrite IH. cbn [app]. replace (filter _ _) with (@nil nat); [reflexivity|]. symmetry.
      unfold ssize in Z. revert Z. generalize (map lsize (slines q b (ton o))). clear. induction l as [|x l IHl]; cbn [sum filter]; intros Z; auto.
      replace x with 0 by lia. cbn. apply IHl. lia.
    - cbn [map app stage_out msize mpeer mplace]. rewrite IH. unfold flat_instr, flat, sm. cbn [fst snd]. now rewrite Nat.add_0_r.
  Qed.
  Lemma out_pieces u ps : In (u, ps) (flat_map out_of (seq 0 N)) -> ps <> [] /\ fold_left Nat.add ps 0 = msize u.
  Proof.
    intros I. apply in_flat_map in I. destruct I as (o & _ & I). unfold out_of in I.
    destruct (Nat.eqb_spec (ssize size_of q b (ton o)) 0) as [Z|Z]; [destruct I|]. destruct I as [I|[]].
    injection I as <- <-. cbn [msize]. rewrite fold_plus, sum_positive. cbn [Nat.add]. split; [|reflexivity].
    intros E. apply Z. unfold ssize. rewrite <- sum_positive, E. reflexivity.
  Qed.

  (* nothing is reduced when it arrives *)
  Definition no_self : Prop := forall p, match recvfrom (lines b (last_receiving q b p)) with e :: _ => is_node q e = false | [] => True end.
  Lemma unpacks_eq os : no_self -> forall c, unpacks size_of N q b os c =
    (fix go os c := match os with
      | [] => []
      | o :: r => if rsize (fromn o) =? 0 then go r c
                  else Memcpy (Shm 0, fstart (fromn o)) (Shm c, 0) (rsize (fromn o)) :: go r (S c)
      end) os c.
  Proof.
    intros NS. induction os as [|o os IH]; intros c; [reflexivity|]. cbn [unpacks]. rewrite !IH.
    destruct (rsize (fromn o) =? 0); [reflexivity|]. f_equal. specialize (NS (fromn o)).
    destruct (recvfrom _) as [|e es]; [reflexivity|]. now rewrite NS.
  Qed.
  Lemma unpacks_shape os : no_self -> forall c, map (flat_instr base) (unpacks size_of N q b os c) = unstage base c (flat_map in_of os).
  Proof.
    intros NS. induction os as [|o os IH]; intros c; [reflexivity|]. rewrite unpacks_eq by exact NS. cbn [flat_map]. unfold in_of at 1.
    destruct (rsize (fromn o) =? 0).
    - rewrite <- unpacks_eq by exact NS. apply IH.
    - rewrite <- (unpacks_eq os NS). cbn [map app unstage msize mplace]. rewrite IH. unfold flat_instr, flat, sm. cbn [fst snd].
      rewrite B0, Nat.add_0_r. reflexivity.
  Qed.
  Lemma reduces_shape : map (flat_instr base) (reduces size_of b) = reduces size_of b.
  Proof.
    unfold reduces. rewrite map_flat. apply flat_map_ext. intros n. rewrite map_flat. apply flat_map_ext. intros r.
    destruct (lsize n =? 0); [reflexivity|]. cbn [map flat_instr flat fst snd]. now rewrite B0.
  Qed.
  Lemma reduces_reduce : Forall is_reduce (reduces size_of b).
  Proof.
    apply Forall_forall. intros i I. unfold reduces in I. apply in_flat_map in I. destruct I as (n & _ & I).
    apply in_flat_map in I. destruct I as (r & _ & I). destruct (lsize n =? 0); [destruct I|]. destruct I as [<-|[]]. exact Logic.I.
  Qed.
  Lemma reduces_sized : Forall sized (reduces size_of b).
  Proof.
    apply Forall_forall. intros i I. unfold reduces in I. apply in_flat_map in I. destruct I as (n & _ & I).
    apply in_flat_map in I. destruct I as (r & _ & I). destruct (Nat.eqb_spec (lsize n) 0) as [Z|Z]; [destruct I|]. destruct I as [<-|[]]. cbn [sized]. clear - Z. lia.
  Qed.

  Lemma block_shape first : no_self -> copyreduces size_of b = [] ->
    map (flat_instr base) (block_code size_of N q b first) = ecode base first exch_of.
  Proof.
    intros NS NC. unfold block_code, post_code, after_code, ecode, bar. rewrite NC, app_nil_r.
    repeat (rewrite ?map_app; cbn [map flat_instr]). rewrite receives_shape, sends_shape, unpacks_shape, reduces_shape by exact NS.
    rewrite receives_number. destruct first; cbn [map flat_instr app]; rewrite <- ?app_assoc; reflexivity.
  Qed.
End Block.
