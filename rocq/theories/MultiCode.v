(* The code of raw_code.c as segments between barriers: of a node with one core
   (RawModel.v), and of every core of a node (MultiModel.v). *)
From Verif Require Import Base SchedModel SchedSpec RawModel RawSpec MsgProofs RawCode RawStage RawProofs MultiModel MultiSim.
Local Ltac Zify.zify_post_hook ::= idtac.

Definition join_node (l : list segment) : list instr := match l with [] => [] | s :: k => seg_code s ++ later_code k end.
Definition join_core (c r : nat) (l : list segment) : list instr := match l with [] => [] | s :: k => seg_core c r s ++ later_core c r k end.
Lemma later_node_join l : l <> [] -> later_code l = Barrier :: join_node l.
Proof. destruct l; [congruence|]. reflexivity. Qed.
Lemma later_core_join c r l : l <> [] -> later_core c r l = Barrier :: join_core c r l.
Proof. destruct l; [congruence|]. reflexivity. Qed.
Lemma later_node_app l k : later_code (l ++ k) = later_code l ++ later_code k.
Proof. induction l as [|s l IH]; [reflexivity|]. cbn [app later_code]. now rewrite IH, <- !app_assoc. Qed.
Lemma later_core_app c r l k : later_core c r (l ++ k) = later_core c r l ++ later_core c r k.
Proof. induction l as [|s l IH]; [reflexivity|]. cbn [app later_core]. now rewrite IH, <- !app_assoc. Qed.
Lemma join_node_app l k : l <> [] -> join_node (l ++ k) = join_node l ++ later_code k.
Proof. destruct l; [congruence|]. intros _. cbn [app join_node]. now rewrite later_node_app, app_assoc. Qed.
Lemma join_core_app c r l k : l <> [] -> join_core c r (l ++ k) = join_core c r l ++ later_core c r k.
Proof. destruct l; [congruence|]. intros _. cbn [app join_core]. now rewrite later_core_app, app_assoc. Qed.

Section Node.
  (* [duty p q]: the core that has messages from node p to node q *)
  Context (size_of : nat -> nat) (N node : nat) (duty : nat -> nat -> nat).

  Fixpoint recv_posts (b : block) (os : list nat) (c : nat) : list post :=
    match os with
    | [] => []
    | o :: r =>
      let q := from_node N node o in
      let size := recv_size size_of node b q in
      if size =? 0 then recv_posts b r c
      else Post true (duty q node) (Shm c, 0) size q :: recv_posts b r (S c)
    end.
  Fixpoint send_segs (b : block) (ps : list post) (os : list nat) (c : nat) : list segment :=
    match os with
    | [] => [Seg ps [] true]
    | o :: r =>
      let q := to_node N node o in
      let '(code, add) := pack_lines size_of node b q c (seq 0 (num_lines b)) 0 in
      if add =? 0 then send_segs b ps r c
      else Seg ps code false :: send_segs b [Post false (duty node q) (Shm c, 0) add q] r (S c)
    end.
  Definition block_segs (b : block) : list segment :=
    let os := seq 0 N in
    let ps := recv_posts b os 1 in
    send_segs b ps os (1 + length ps) ++
    [Seg [] (unpacks size_of N node b os 1) false; Seg [] (reduces size_of b ++ copyreduces size_of b) false].

  Lemma recv_posts_code b os : forall c, map post_instr (recv_posts b os c) = receives size_of N node b os c.
  Proof.
    induction os as [|o os IH]; intros c; [reflexivity|]. cbn [recv_posts receives]. destruct (_ =? 0); [apply IH|].
    cbn [map]. now rewrite IH.
  Qed.
  Lemma send_segs_some b os : forall ps c, send_segs b ps os c <> [].
  Proof.
    induction os as [|o os IH]; intros ps c; [discriminate|]. cbn [send_segs]. destruct (pack_lines _ _ _ _ _ _ _) as [code add].
    destruct (add =? 0); [apply IH|discriminate].
  Qed.

  (* an empty message needs no copies *)
  Lemma pack_entries_add b q n c es : forall add, add <= snd (pack_entries size_of node b q n c es add) /\
    (snd (pack_entries size_of node b q n c es add) = add -> fst (pack_entries size_of node b q n c es add) = []).
  Proof.
    induction es as [|e es IH]; intros add; [split; auto|]. cbn [pack_entries]. destruct (_ && _); [|apply IH].
    specialize (IH (add + line_size size_of b n)). destruct (pack_entries _ _ _ _ _ _ _ _) as [code add']. cbn [fst snd] in *.
    destruct IH as [L E]. split; [lia|]. intros ->. assert (Z : line_size size_of b n = 0) by lia. rewrite Z in *. cbn.
    apply E. lia.
  Qed.
  Lemma pack_lines_add b q c ns : forall add, add <= snd (pack_lines size_of node b q c ns add) /\
    (snd (pack_lines size_of node b q c ns add) = add -> fst (pack_lines size_of node b q c ns add) = []).
  Proof.
    induction ns as [|n ns IH]; intros add; [split; auto|]. cbn [pack_lines].
    pose proof (pack_entries_add b q n c (sendto (lines b n)) add) as [L1 E1]. destruct (pack_entries _ _ _ _ _ _ _ _) as [code1 add1].
    specialize (IH add1). destruct (pack_lines _ _ _ _ _ _ _) as [code2 add2]. cbn [fst snd] in *. destruct IH as [L2 E2].
    split; [lia|]. intros ->. rewrite E1, E2 by lia. reflexivity.
  Qed.
  Lemma pack_lines_zero b q c ns code : pack_lines size_of node b q c ns 0 = (code, 0) -> code = [].
  Proof. intros E. destruct (pack_lines_add b q c ns 0) as [_ H]. rewrite E in H. now apply H. Qed.

  Lemma send_segs_code b os : forall ps c,
    join_node (send_segs b ps os c) = map post_instr ps ++ sends size_of N node b os c ++ [Waitall].
  Proof.
    induction os as [|o os IH]; intros ps c; [cbn; now rewrite app_nil_r|]. cbn [send_segs sends].
    destruct (pack_lines _ _ _ _ _ _ _) as [code add] eqn:E. destruct (Nat.eqb_spec add 0) as [->|Z].
    - rewrite IH. apply pack_lines_zero in E. now subst.
    - cbn [join_node]. rewrite later_node_join by apply send_segs_some. rewrite IH. unfold seg_code. cbn [posts locals wait waits map post_instr is_recv].
      rewrite app_nil_r, <- !app_assoc. reflexivity.
  Qed.
  Lemma block_segs_code b (first : bool) : (if first then [] else [Barrier]) ++ join_node (block_segs b) = block_code size_of N node b first.
  Proof.
    unfold block_segs, block_code, post_code, after_code. rewrite join_node_app by apply send_segs_some.
    rewrite send_segs_code, recv_posts_code. rewrite <- (map_length post_instr (recv_posts b (seq 0 N) 1)), recv_posts_code.
    rewrite <- !app_assoc. f_equal. f_equal. cbn [later_code]. unfold seg_code. cbn [posts locals wait waits map app].
    now rewrite !app_nil_r.
  Qed.

  Lemma block_segs_some b : block_segs b <> [].
  Proof. unfold block_segs. pose proof (send_segs_some b (seq 0 N) (recv_posts b (seq 0 N) 1) (1 + length (recv_posts b (seq 0 N) 1))). destruct (send_segs _ _ _ _); [congruence|discriminate]. Qed.

  (* ---------- the requests of a stage ---------- *)
  Fixpoint send_posts (b : block) (os : list nat) (c : nat) : list post :=
    match os with
    | [] => []
    | o :: r =>
      let q := to_node N node o in
      let add := snd (pack_lines size_of node b q c (seq 0 (num_lines b)) 0) in
      if add =? 0 then send_posts b r c
      else Post false (duty node q) (Shm c, 0) add q :: send_posts b r (S c)
    end.
  Lemma send_segs_posts b os : forall ps c, flat_map posts (send_segs b ps os c) = ps ++ send_posts b os c.
  Proof.
    induction os as [|o os IH]; intros ps c; [reflexivity|]. cbn [send_segs send_posts]. destruct (pack_lines _ _ _ _ _ _ _) as [code add].
    cbn [snd]. destruct (add =? 0); [apply IH|]. cbn [flat_map posts]. now rewrite IH.
  Qed.
  Lemma send_segs_upto b os k : forall ps c, upto (send_segs b ps os c ++ k) = ps ++ send_posts b os c.
  Proof.
    induction os as [|o os IH]; intros ps c; [reflexivity|]. cbn [send_segs send_posts]. destruct (pack_lines _ _ _ _ _ _ _) as [code add].
    cbn [snd]. destruct (add =? 0); [apply IH|]. cbn [app upto posts wait]. now rewrite IH.
  Qed.
  Lemma recv_all b os : forall c, Forall (fun x => is_recv x = true) (recv_posts b os c).
  Proof. induction os as [|o os IH]; intros c; [constructor|]. cbn [recv_posts]. destruct (_ =? 0); auto. Qed.
  Lemma send_all b os : forall c, Forall (fun x => is_recv x = false) (send_posts b os c).
  Proof. induction os as [|o os IH]; intros c; [constructor|]. cbn [send_posts]. destruct (_ =? 0); auto. Qed.
  Lemma pick_all (l : list post) v : Forall (fun x => is_recv x = v) l ->
    sends_in l = (if v then [] else l) /\ recvs_in l = (if v then l else []).
  Proof.
    induction 1 as [|x l E F [IH1 IH2]]; [destruct v; auto|]. unfold sends_in, recvs_in in *. cbn [filter].
    rewrite E, IH1, IH2. destruct v; auto.
  Qed.

  Definition add_of (b : block) (q : nat) : nat := snd (pack_lines size_of node b q 1 (seq 0 (num_lines b)) 0).
  Lemma pack_add b q c ns : 1 <= c -> forall add, snd (pack_lines size_of node b q c ns add) = add + sum (map (line_size size_of b) (slines_in node b q ns)).
  Proof.
    intros Hc add. pose proof (pack_lines_ok size_of node b andb q c Hc ns add) as H. destruct (pack_lines _ _ _ _ _ _ _) as [code add'].
    exact (pk_add _ _ _ _ _ _ _ _ H).
  Qed.
  Lemma pack_ssize b q c : 1 <= c -> snd (pack_lines size_of node b q c (seq 0 (num_lines b)) 0) = ssize size_of node b q.
  Proof. intros Hc. now rewrite pack_add. Qed.

  Lemma recv_others b os : forall c, map other (recv_posts b os c) = filter (fun q => negb (recv_size size_of node b q =? 0)) (map (from_node N node) os).
  Proof.
    induction os as [|o os IH]; intros c; [reflexivity|]. cbn [recv_posts map filter]. destruct (_ =? 0); cbn [negb]; [apply IH|].
    cbn [map other]. now rewrite IH.
  Qed.
  Lemma send_others b os : forall c, 1 <= c -> map other (send_posts b os c) = filter (fun q => negb (ssize size_of node b q =? 0)) (map (to_node N node) os).
  Proof.
    induction os as [|o os IH]; intros c Hc; [reflexivity|]. cbn [send_posts map filter]. rewrite pack_ssize by auto.
    destruct (_ =? 0); cbn [negb]; [now apply IH|]. cbn [map other]. rewrite IH by lia. reflexivity.
  Qed.
  Lemma recv_owns b os : forall c x, In x (recv_posts b os c) -> own x = duty (other x) node /\ In (other x) (map (from_node N node) os).
  Proof.
    induction os as [|o os IH]; intros c x I; [destruct I|]. cbn [recv_posts map] in *. destruct (_ =? 0).
    - destruct (IH _ _ I). split; auto. now right.
    - destruct I as [<-|I]; [split; auto; now left|]. destruct (IH _ _ I). split; auto. now right.
  Qed.
  Lemma send_owns b os : forall c x, In x (send_posts b os c) -> own x = duty node (other x) /\ In (other x) (map (to_node N node) os).
  Proof.
    induction os as [|o os IH]; intros c x I; [destruct I|]. cbn [send_posts map] in *. destruct (_ =? 0).
    - destruct (IH _ _ I). split; auto. now right.
    - destruct I as [<-|I]; [split; auto; now left|]. destruct (IH _ _ I). split; auto. now right.
  Qed.
  (* at most one request for each partner *)
  Lemma tags_single (l : list post) q v : NoDup (map other l) -> (forall x, In x l -> other x = q -> own x = v) ->
    tags q l = if in_dec Nat.eq_dec q (map other l) then [v] else [].
  Proof.
    intros ND E. induction l as [|x l IH]; [reflexivity|]. cbn [map] in ND. inversion ND as [|? ? I ND']; subst.
    unfold tags in *. cbn [filter]. destruct (Nat.eqb_spec (other x) q) as [X|X].
    - assert (Z : tags q l = []) by (apply tags_gone; now rewrite <- X). unfold tags in Z. cbn [map]. rewrite Z, (E x) by (auto; now left).
      destruct (in_dec Nat.eq_dec q (other x :: map other l)) as [|n]; [reflexivity|]. exfalso. apply n. now left.
    - rewrite IH by (auto; intros; apply E; auto; now right).
      cbn [map]. destruct (in_dec Nat.eq_dec q (map other l)) as [i|n], (in_dec Nat.eq_dec q (other x :: map other l)) as [i'|n']; auto.
      + exfalso. apply n'. now right.
      + exfalso. destruct i'; congruence.
  Qed.

  Context (c : nat) (Hnode : node < N) (Hduty : forall p q, duty p q < c).
  Lemma pack_local b q k ns : forall add, Forall is_local (fst (pack_lines size_of node b q k ns add)).
  Proof.
    assert (PE : forall n es add, Forall is_local (fst (pack_entries size_of node b q n k es add))).
    { intros n. induction es as [|e es IH]; intros add; [constructor|]. cbn [pack_entries]. destruct (_ && _); [|apply IH].
      specialize (IH (add + line_size size_of b n)). destruct (pack_entries _ _ _ _ _ _ _ _) as [code add']. cbn [fst] in *.
      apply Forall_app. split; [|exact IH]. destruct (_ =? 0); repeat constructor. }
    induction ns as [|n ns IH]; intros add; [constructor|]. cbn [pack_lines]. specialize (PE n (sendto (lines b n)) add).
    destruct (pack_entries _ _ _ _ _ _ _ _) as [code1 add1]. specialize (IH add1). destruct (pack_lines _ _ _ _ _ _ _) as [code2 add2].
    cbn [fst] in *. now apply Forall_app.
  Qed.
  Lemma unpack_local b os : forall k, Forall is_local (unpacks size_of N node b os k).
  Proof.
    induction os as [|o os IH]; intros k; [constructor|]. cbn [unpacks]. destruct (_ =? 0); [apply IH|]. constructor; [|apply IH].
    destruct (recvfrom _) as [|e es]; [exact I|]. destruct (is_node node e); exact I.
  Qed.
  Lemma reduce_local b : Forall is_local (reduces size_of b ++ copyreduces size_of b).
  Proof.
    apply Forall_app. split; apply Forall_forall; intros i Hi.
    - unfold reduces in Hi. apply in_flat_map in Hi. destruct Hi as (n & _ & Hi). apply in_flat_map in Hi.
      destruct Hi as (r & _ & Hi). destruct (_ =? 0); [destruct Hi|]. destruct Hi as [<-|[]]. exact I.
    - unfold copyreduces in Hi. apply in_flat_map in Hi. destruct Hi as (n & _ & Hi). destruct (_ =? 0); [destruct Hi|].
      destruct (copyreducefrom _) as [|r0 rs]; [destruct Hi|]. destruct Hi as [<-|Hi]; [exact I|].
      apply in_map_iff in Hi. destruct Hi as (r & <- & _). exact I.
  Qed.
  Lemma nodup_suffix {A} (l k : list A) : NoDup (l ++ k) -> NoDup k.
  Proof. induction l; cbn; auto. intros D. inversion D; auto. Qed.

  Lemma send_segs_good b os k : good N c k -> k <> [] -> (forall o, In o os -> o < N) -> forall ps j, 1 <= j ->
    NoDup (map other (sends_in ps) ++ map other (send_posts b os j)) ->
    NoDup (map other (recvs_in ps)) -> Forall (post_ok N c) ps -> good N c (send_segs b ps os j ++ k).
  Proof.
    intros Gk Nk. induction os as [|o os IH]; intros Ho ps j Hj D1 D2 F.
    - cbn [send_segs app good upto posts locals wait]. rewrite !app_nil_r. cbn in D1. rewrite app_nil_r in D1.
      repeat split; auto; try congruence.
    - cbn [send_segs send_posts] in *. pose proof (pack_local b (to_node N node o) j (seq 0 (num_lines b)) 0) as PL.
      destruct (pack_lines _ _ _ _ _ _ _) as [code add]. cbn [fst snd] in *. destruct (Nat.eqb_spec add 0) as [Z|Z].
      + apply IH; auto. intros; apply Ho; now right.
      + set (ps' := [Post false (duty node (to_node N node o)) (Shm j, 0) add (to_node N node o)]) in *.
        cbn [app good upto posts locals wait].
        change ((if false then [] else upto (send_segs b ps' os (S j) ++ k))) with (upto (send_segs b ps' os (S j) ++ k)).
        rewrite send_segs_upto, sends_app, recvs_app, !sends_app, !recvs_app, !map_app.
        destruct (pick_all _ _ (send_all b os (S j))) as [-> ->].
        split; [exact D1|]. split; [cbn; rewrite app_nil_r; exact D2|]. split; [exact PL|]. split; [exact F|].
        split; [intros X; exfalso; apply app_eq_nil in X; now apply (send_segs_some b os ps' (S j))|].
        apply IH; auto; try lia.
        * intros; apply Ho; now right.
        * apply nodup_suffix in D1. exact D1.
        * constructor.
        * constructor; [|constructor]. split; cbn; auto. apply to_node_lt; auto. apply Ho. now left.
  Qed.
  Lemma block_segs_good b k : good N c k -> k <> [] -> good N c (block_segs b ++ k).
  Proof.
    intros Gk Nk. unfold block_segs. rewrite <- app_assoc. cbn [app].
    apply send_segs_good; auto.
    - cbn [good upto posts locals wait app sends_in recvs_in filter map].
      destruct k as [|s k]; [congruence|]. pose proof Gk as (M1 & M2 & _). 
      split; [exact M1|]. split; [exact M2|]. split; [apply unpack_local|]. split; [constructor|]. split; [discriminate|].
      split; [exact M1|]. split; [exact M2|]. split; [apply reduce_local|]. split; [constructor|]. split; [discriminate|]. exact Gk.
    - discriminate.
    - intros o Ho. apply in_seq in Ho. lia.
    - lia.
    - destruct (pick_all _ _ (recv_all b (seq 0 N) 1)) as [-> _]. cbn [map app]. rewrite send_others by lia.
      now apply NoDup_filter, to_nodup.
    - destruct (pick_all _ _ (recv_all b (seq 0 N) 1)) as [_ ->]. rewrite recv_others. now apply NoDup_filter, from_nodup.
    - apply Forall_forall. intros x I. apply recv_owns in I. destruct I as [E I]. split; [rewrite E; apply Hduty|].
      apply in_map_iff in I. destruct I as (o & <- & Ho). apply in_seq in Ho. apply from_node_lt; auto. lia.
  Qed.
  Definition stage_posts b := recv_posts b (seq 0 N) 1 ++ send_posts b (seq 0 N) (1 + length (recv_posts b (seq 0 N) 1)).
  Lemma block_segs_posts b : all_posts (block_segs b) = stage_posts b.
  Proof. unfold all_posts, block_segs. rewrite flat_map_app, send_segs_posts. cbn. now rewrite app_nil_r. Qed.
  Lemma stage_sent b q : q < N -> tags q (sends_in (stage_posts b)) = if ssize size_of node b q =? 0 then [] else [duty node q].
  Proof.
    intros Hq. unfold stage_posts. rewrite sends_app. destruct (pick_all _ _ (recv_all b (seq 0 N) 1)) as [-> _].
    destruct (pick_all _ _ (send_all b (seq 0 N) (1 + length (recv_posts b (seq 0 N) 1)))) as [-> _]. cbn [app].
    rewrite (tags_single _ q (duty node q)).
    - rewrite send_others by lia. destruct (in_dec _ _ _) as [i|n].
      + apply filter_In in i. destruct i as [_ i]. now destruct (_ =? 0).
      + destruct (ssize size_of node b q =? 0) eqn:E; [reflexivity|]. exfalso. apply n. apply filter_In. split; [now apply to_all|now rewrite E].
    - rewrite send_others by lia. now apply NoDup_filter, to_nodup.
    - intros x I E. apply send_owns in I. destruct I as [-> _]. now rewrite E.
  Qed.
  Lemma stage_recv b p : p < N -> tags p (recvs_in (stage_posts b)) = if recv_size size_of node b p =? 0 then [] else [duty p node].
  Proof.
    intros Hq. unfold stage_posts. rewrite recvs_app. destruct (pick_all _ _ (recv_all b (seq 0 N) 1)) as [_ ->].
    destruct (pick_all _ _ (send_all b (seq 0 N) (1 + length (recv_posts b (seq 0 N) 1)))) as [_ ->]. rewrite app_nil_r.
    rewrite (tags_single _ p (duty p node)).
    - rewrite recv_others by lia. destruct (in_dec _ _ _) as [i|n].
      + apply filter_In in i. destruct i as [_ i]. now destruct (_ =? 0).
      + destruct (recv_size size_of node b p =? 0) eqn:E; [reflexivity|]. exfalso. apply n. apply filter_In. split; [now apply from_all|now rewrite E].
    - rewrite recv_others by lia. now apply NoDup_filter, from_nodup.
    - intros x I E. apply recv_owns in I. destruct I as [-> _]. now rewrite E.
  Qed.
End Node.

(* all stages, each with its own distribution of duties *)
Definition quiet_seg := Seg [] [] false.
Lemma quiet_good N c k : good N c k -> good N c (quiet_seg :: k).
Proof.
  intros G. cbn [good upto posts locals wait quiet_seg app]. destruct k as [|s k].
  - split; [constructor|]. split; [constructor|]. split; [constructor|]. split; [constructor|]. split; [auto|exact I].
  - pose proof G as (M1 & M2 & _). split; [exact M1|]. split; [exact M2|]. split; [constructor|]. split; [constructor|].
    split; [discriminate|exact G].
Qed.
Section Whole.
  Context (size_of : nat -> nat) (N node : nat).
  Definition one_stage (x : (nat -> nat -> nat) * block) : list segment := block_segs size_of N node (fst x) (snd x).
  Definition later_segs (bs : list ((nat -> nat -> nat) * block)) : list segment := flat_map one_stage bs ++ [quiet_seg].
  Lemma later_segs_code bs : later_code (later_segs bs) = blocks_code size_of N node (map snd bs) false.
  Proof.
    unfold later_segs. induction bs as [|b bs IH]; [reflexivity|]. cbn [flat_map blocks_code map]. rewrite <- app_assoc, later_node_app, IH.
    f_equal. unfold one_stage. rewrite later_node_join by apply block_segs_some. now rewrite <- (block_segs_code _ _ _ (fst b) (snd b) false).
  Qed.
  Definition whole_segs (bs : list ((nat -> nat -> nat) * block)) : list segment :=
    match bs with [] => [quiet_seg; quiet_seg] | _ => later_segs bs end.
  Lemma whole_segs_code bs : join_node (whole_segs bs) = blocks_code size_of N node (map snd bs) true.
  Proof.
    destruct bs as [|b bs]; [reflexivity|]. unfold whole_segs, later_segs. cbn [flat_map blocks_code map].
    rewrite <- app_assoc. unfold one_stage at 1. rewrite join_node_app by apply block_segs_some. fold (later_segs bs). rewrite later_segs_code.
    now rewrite <- (block_segs_code _ _ _ (fst b) (snd b) true).
  Qed.
  Lemma whole_segs_some bs : whole_segs bs <> [].
  Proof.
    destruct bs as [|b bs]; [discriminate|]. unfold whole_segs, later_segs. cbn [flat_map]. unfold one_stage at 1.
    pose proof (block_segs_some size_of N node (fst b) (snd b)). destruct (block_segs _ _ _ _ _); [congruence|discriminate].
  Qed.
  Context (c : nat) (Hnode : node < N).
  Lemma later_segs_good bs : (forall x p q, In x bs -> fst x p q < c) -> good N c (later_segs bs).
  Proof.
    unfold later_segs. induction bs as [|b bs IH]; intros Hd; [now apply quiet_good|]. cbn [flat_map]. rewrite <- app_assoc.
    apply block_segs_good; auto.
    - intros p q. apply Hd. now left.
    - apply IH. intros x p q I. apply Hd. now right.
    - intros X. apply app_eq_nil in X. destruct X. discriminate.
  Qed.
  Lemma whole_segs_good bs : (forall x p q, In x bs -> fst x p q < c) -> good N c (whole_segs bs).
  Proof. destruct bs as [|b bs]; [intros _; now do 2 apply quiet_good|]. apply later_segs_good. Qed.
  Lemma whole_segs_posts bs : all_posts (whole_segs bs) = flat_map (fun x => stage_posts size_of N node (fst x) (snd x)) bs.
  Proof.
    destruct bs as [|b0 bs0]; [reflexivity|]. unfold whole_segs, later_segs. generalize (b0 :: bs0) as bs. intros bs.
    unfold all_posts. rewrite flat_map_app. cbn [flat_map posts quiet_seg]. rewrite !app_nil_r.
    induction bs as [|b bs IH]; [reflexivity|]. cbn [flat_map]. rewrite flat_map_app, IH. f_equal. apply block_segs_posts.
  Qed.
End Whole.
