(* The final code of allreduce and reduce_scatter. *)
From Verif Require Import Base SchedModel SchedSpec SchedProofs RecursiveModel RecursiveArith RecursiveSpec RecursiveProofs ReduceProofs AllreduceProofs
  MatchProofs RawModel RawSpec MsgProofs PhaseProofs RawCode RawStage RawProofs RawEnd RawWhole RawInst
  FinalModel FinalSpec FinalPass FinalMerge FinalShape FinalRename FinalBlock FinalSim FinalTidy.
Local Ltac Zify.zify_post_hook ::= idtac.

Lemma tidy_empty N w0 wk : tidy N w0 wk (fun _ => empty_block).
Proof.
  constructor; cbn.
  - intros. exists 0, 0. cbn. split; [reflexivity|]. assert (H2 : 0 mod N <= N) by (destruct N; [lia|rewrite Nat.mod_small; lia]). lia.
  - intros. exists 0, 0. cbn. split; [reflexivity|]. assert (H2 : 0 mod N <= N) by (destruct N; [lia|rewrite Nat.mod_small; lia]). lia.
  - intros q p n _ _ _ [].
  - intros q p n _ _ _ [].
  - intros q p n _ _ _ [].
  - intros q n r x _ H. lia.
  - intros q p p' n _ _ _ _ _ [].
  - intros q p p' n _ _ _ _ _ [].
  - intros q n e _ [].
  - intros q _. exists 1. split; [lia|]. intros n r H. lia.
  - intros q n _ H. lia.
Qed.

Lemma allreduce_tidy down mid up m : balanced down mid up ->
  tidy (product (mid ++ up)) (fun _ => 0) (fun _ => product (mid ++ up)) (fun q => nth (S m) (allreduce_core (down ++ mid ++ up) q) empty_block).
Proof.
  intros (Hd & Hm & Hu & Hi & Hne).
  set (N := product (mid ++ up)).
  assert (EN : N = product mid * product up) by apply product_app.
  assert (AE := allreduce_core_eq down mid up Hd Hm Hu Hi).
  set (M := product mid) in *. rewrite <- EN in AE.
  set (fm := match down with [] => true | _ => false end) in *.
  assert (Mp : 0 < M) by apply product_pos. assert (Np : 0 < N) by apply product_pos.
  assert (END : N = M * product down) by (rewrite EN; f_equal; exact Hi).
  assert (HMN : N mod M = 0) by (rewrite END, Nat.mul_comm; apply Nat.mod_mul; lia).
  assert (Zd : nonzero down) by (eapply Forall_impl; [|exact Hd]; cbn; lia).
  assert (Zm : nonzero mid) by (eapply Forall_impl; [|exact Hm]; cbn; lia).
  assert (Nth : forall q, nth (S m) (allreduce_core (down ++ mid ++ up) q) empty_block =
    nth m (rs_stages N N true down q ++ mid_stages N M 1 fm mid q ++
           up_stages N (2 * N) (fun y => blank (y mod N)) M up q ++ [ar_last N]) empty_block).
  { intros q. rewrite AE. reflexivity. }
  destruct (le_lt_dec (length down) m) as [H1|H1].
  2:{ destruct (rs_stage_at N down M true m) as (g & p & f & l & Hg & Hp & HN & E); auto.
      { rewrite <- END. apply Nat.mod_same. lia. }
      apply (tidy_rs g p N f l); auto.
      { intros. apply window_all. }
      intros q. rewrite Nth, app_nth1 by (rewrite rs_stages_length; assumption).
      assert (E' := E q). rewrite <- END in E'. exact E'. }
  assert (Nth1 : forall q, nth (S m) (allreduce_core (down ++ mid ++ up) q) empty_block =
    nth (m - length down) (mid_stages N M 1 fm mid q ++
           up_stages N (2 * N) (fun y => blank (y mod N)) M up q ++ [ar_last N]) empty_block).
  { intros q. rewrite Nth, app_nth2; rewrite rs_stages_length; [reflexivity|assumption]. }
  set (m1 := m - length down) in *.
  destruct (le_lt_dec (length mid) m1) as [H2|H2].
  2:{ destruct (mid_stage_at N M mid 1 fm m1) as (g & p & f & Hg & Hp & HN & E); auto.
      { rewrite Nat.mul_1_l. apply Nat.mod_same. fold M; lia. }
      apply (tidy_mid g p M N f); auto.
      intros q. rewrite Nth1, app_nth1 by (rewrite mid_stages_length; assumption). apply E. }
  assert (Nth2 : forall q, nth (S m) (allreduce_core (down ++ mid ++ up) q) empty_block =
    nth (m1 - length mid) (up_stages N (2 * N) (fun y => blank (y mod N)) M up q ++ [ar_last N]) empty_block).
  { intros q. rewrite Nth1, app_nth2; rewrite mid_stages_length; [reflexivity|assumption]. }
  set (m2 := m1 - length mid) in *.
  destruct (Nat.lt_trichotomy m2 (length up)) as [H|[H|H]].
  - destruct (up_stage_at N (2 * N) N (fun y => blank (y mod N)) up M m2) as (g & p & Hg & HN & E); auto.
    { rewrite <- EN. apply Nat.mod_same. lia. }
    apply (tidy_up g p N); auto.
    intros q. rewrite Nth2, app_nth1 by (rewrite up_stages_length; assumption). apply E.
  - apply (tidy_user N (2 * N) (fun x => blank (x mod N))
      (fun _ => map (fun line => (line, Send [((-1)%Z, line mod N)])) (seq N N))); auto using blanks_mod.
    + intros q. rewrite Nth2, app_nth2; rewrite up_stages_length; [|lia].
      rewrite H, Nat.sub_diag. reflexivity.
    + intros p n f _ Hf. apply in_map_iff in Hf. destruct Hf as (l & [= <- <-] & _). split; [repeat constructor|apply window_all].
  - apply (tidy_ext _ _ _ (fun _ => empty_block)); [|apply tidy_empty].
    intros q. symmetry. rewrite Nth2. apply nth_overflow. rewrite app_length, up_stages_length. cbn. lia.
Qed.

(* in the last stage the groups consist of one node *)
Lemma rs_stage_own N ports : forall g first m, 0 < g -> nonzero ports -> m < length ports -> N mod (g * product ports) = 0 ->
  exists g' p f l, 0 < g' /\ 0 < p /\ N mod (g' * (p + 1)) = 0 /\ (l = true -> g' = g) /\
    forall q, nth m (rs_stages N (g * product ports) first ports q) empty_block = rs_block N (g' * (p + 1)) p f l q.
Proof.
  induction ports as [|p r IH]; intros g first m Hg Hz Hm HN; [cbn in Hm; lia|].
  inversion Hz as [|? ? Hp Hr]; subst.
  set (g' := g * product r).
  assert (EG : g * product (p :: r) = g' * (width p + 1)) by (rewrite product_cons; unfold g'; lia).
  assert (Hg' : 0 < g') by (unfold g'; assert (X := product_pos r); nia).
  rewrite EG in *.
  destruct m as [|m].
  - exists g', (width p), first, (match r with [] => true | _ => false end).
    split; [assumption|]. split; [unfold width; lia|]. split; [assumption|]. split; [|reflexivity].
    unfold g'. destruct r; [|discriminate]. intros _. cbn. lia.
  - cbn [rs_stages nth]. rewrite Nat.div_mul by lia. apply (IH g false m); auto; [cbn in Hm; lia|].
    fold g'. apply mod_of_factor with (width p + 1); [assumption|lia|assumption].
Qed.
Lemma reduce_scatter_tidy ports m : nonzero ports ->
  tidy (product ports) (fun q => q) (fun _ => 1) (fun q => nth (S m) (reduce_scatter_core ports q) empty_block).
Proof.
  intros Hz. set (N := product ports). assert (EN : ports_product ports = N) by apply ports_product_eq.
  assert (Np : 0 < N) by apply product_pos.
  destruct (Nat.lt_trichotomy m (length ports)) as [H|[->|H]].
  - destruct (rs_stage_own N ports 1 true m) as (g & p & f & l & Hg & Hp & HN & HG & E); auto.
    { rewrite Nat.mul_1_l. apply Nat.mod_same. lia. }
    apply (tidy_rs g p N f l); auto.
    + intros q l' Hq Hl' X Y. rewrite HG in X by exact Y. rewrite !Nat.div_1_r in X. subst l'. unfold in_window. lia.
    + intros q. assert (E' := E q). rewrite Nat.mul_1_l in E'. unfold reduce_scatter_core. rewrite EN. cbn [nth].
      rewrite app_nth1 by (rewrite rs_stages_length; assumption). exact E'.
  - apply (tidy_user N (2 * N) (fun x => blank (x mod N))
        (fun q => flat_map (fun line => if line - (2 * N) / 2 =? q
                           then [(line, Send [((-1)%Z, line - N)])] else []) (seq N N))); auto using blanks_mod.
    + intros q. unfold reduce_scatter_core. rewrite EN. cbn [nth].
      rewrite app_nth2; rewrite rs_stages_length; [|lia]. rewrite Nat.sub_diag. reflexivity.
    + intros p n f Hp Hf. apply in_flat_map in Hf. destruct Hf as (l & Hl & Hf). apply in_seq in Hl.
      destruct (Nat.eqb_spec (l - 2 * N / 2) p) as [E|]; [|destruct Hf]. destruct Hf as [[= <- <-]|[]]. split; [repeat constructor|].
      replace (2 * N / 2) with N in E by (rewrite Nat.mul_comm; symmetry; apply Nat.div_mul; lia). unfold in_window. lia.
  - apply (tidy_ext _ _ _ (fun _ => empty_block)); [|apply tidy_empty].
    intros q. symmetry. apply nth_overflow. rewrite reduce_scatter_length. lia.
Qed.

(* ---------- copy in ---------- *)
Lemma copyin_lines_in N mc b i ns : forall add, In i (copyin_lines N mc b ns add) ->
  match i with Memcpy (Shm 0, x) (Sendbuf, _) n => 0 < n /\ x + n <= moffset mc N | _ => False end.
Proof.
  induction ns as [|j ns IH]; intros add I; [destruct I|]. cbn [copyin_lines] in I. apply in_app_or in I. destruct I as [I|I]; [|eapply IH; eauto].
  destruct (Nat.leb_spec (moffset mc N) add) as [L|L]; cbn [orb] in I; [destruct I|].
  destruct (_ <=? 0); [destruct I|].
  destruct (Nat.ltb_spec 0 add) as [P|P].
  - destruct (Nat.ltb_spec (add + mc (frac (lines b j))) (add + (moffset mc N - add))) as [Q|Q];
      destruct (Nat.eqb_spec (if add + mc (frac (lines b j)) <? add + (moffset mc N - add) then add + mc (frac (lines b j)) - add else moffset mc N - add) 0);
      match type of I with In _ (if ?c then _ else _) => destruct c eqn:Z end; try (now destruct I); destruct I as [<-|[]];
      apply Nat.eqb_neq in Z; replace (moffset mc N + add) with (add + 1 * moffset mc N) by lia; rewrite Nat.mod_add by lia; rewrite Nat.mod_small by lia; lia.
  - destruct (Nat.ltb_spec (add + mc (frac (lines b j))) (0 + moffset mc N)) as [Q|Q];
      match type of I with In _ (if ?c then _ else _) => destruct c eqn:Z end; try (now destruct I); destruct I as [<-|[]];
      apply Nat.eqb_neq in Z; rewrite Nat.add_0_r, Nat.mod_same by lia; lia.
Qed.
Lemma copyin_reduce_in N mc b : Forall (fun i => match i with Memcpy (Shm 0, x) (Sendbuf, _) n => 0 < n /\ x + n <= moffset mc N | Barrier => True | _ => False end)
  (copyin_reduce N mc b).
Proof.
  apply Forall_forall. intros i [<-|[<-|I]]; try exact Logic.I. apply copyin_lines_in in I. destruct i; auto; destruct I.
Qed.
Lemma copyin_beyond {V} (op : V -> V -> V) N mc b (m : @memory V) x : moffset mc N <= x -> exec_list op (copyin_reduce N mc b) m (Shm 0, x) = m (Shm 0, x).
Proof.
  intros H. apply exec_list_other. eapply Forall_impl; [|apply copyin_reduce_in]. intros i I.
  destruct i as [| | | |d s n|]; try (exfalso; exact I); try reflexivity;
  destruct d as [[| |[|]] y]; try (exfalso; exact I); destruct s as [[| |] z]; try (exfalso; exact I); cbn [writes];
  destruct (inside _ _ _) eqn:X; try reflexivity; apply inside_spec in X; cbn in X; lia.
Qed.
Definition copies_out (i : instr) : Prop := match i with Memcpy (Recvbuf, _) (Shm 0, _) n => 0 < n | _ => False end.
Lemma copyout_lines_in mc b c ns : forall d, Forall copies_out (copyout_lines mc b c ns d).
Proof.
  induction ns as [|n ns IH]; intros d; [constructor|].
  cbn [copyout_lines]. apply Forall_app. split; [|apply IH]. destruct (existsb _ _); [|constructor].
  unfold overlapp. match goal with |- context [if ?c =? 0 then [] else _] => destruct (Nat.eqb_spec c 0) end.
  - constructor.
  - constructor; [cbn [copies_out]; lia|constructor].
Qed.
Lemma copyout_all_in mc b c : Forall (fun i => match i with Memcpy (Recvbuf, _) (Shm 0, _) n => 0 < n | _ => False end) (copyout_all mc b c).
Proof. apply copyout_lines_in. Qed.
Lemma copyout_own_in mc b c : Forall (fun i => match i with Memcpy (Recvbuf, _) (Shm 0, _) n => 0 < n | _ => False end) (copyout_own mc b c).
Proof. unfold copyout_own. destruct (Nat.eqb_spec c 0); [constructor|]. constructor; [lia|constructor]. Qed.

(* ---------- the reductions ---------- *)
Section Reduced.
  Context {V : Type} (op : V -> V -> V) (N : nat) (alg : nat -> list block) (nb : nat) (mc : nat -> nat) (post : nat -> list instr).
  Context (w0 wk : nat -> nat) (big : bool).
  Local Notation size_of := (mmsizes mc N).
  Local Notation blk m := (fun q => nth m (alg q) empty_block).
  Local Notation pre := (fun q : nat => copyin_reduce N mc (nth 0 (alg q) empty_block)).
  Context (HN : 0 < N) (Hb : 1 <= nb).
  Context (Hw : forall q, q < N -> w0 q + wk q <= N) (Hbig : big = true -> forall q, q < N -> w0 q = 0) (Hsmall : big = false -> forall q, q < N -> wk q <= 1).
  Context (TD : forall m, 1 <= m < nb -> tidy N w0 wk (blk m)) (WM : forall m, m < nb -> well_matched N (blk m)).
  Context (LAY : forall m q n, m < nb -> q < N -> n < num_lines (blk m q) -> frac (lines (blk m q) n) = n mod N).
  Context (FIRST : forall q, nth 0 (alg q) empty_block = rs_first N).
  Context (Qpost : forall q, q < N -> forallb quiet (post q) = true) (SL : same_length N alg nb).
  Context (PO : forall q, q < N -> Forall (fun i => match i with Memcpy (Recvbuf, _) (Shm 0, _) n => 0 < n | _ => False end) (post q)).
  Local Notation T := (moffset mc N).
  Local Notation rn q := (ren T (lo N size_of (w0 q)) (hi N size_of (w0 q) (wk q))).
  Local Notation FF := (LF N alg nb size_of big).
  Local Notation K := (nb - 1).

  Lemma whole_T : whole N size_of = T.
  Proof. unfold whole. now apply off_modular. Qed.
  Lemma red_window q : q < N -> window_ok T (lo N size_of (w0 q)) (hi N size_of (w0 q) (wk q)) big.
  Proof. intros Hq. rewrite <- whole_T. apply window; auto. Qed.
  Lemma red_phases : phases_ok N K FF.
  Proof.
    clear FIRST SL PO. apply (final_ok N alg nb size_of pre post w0 wk big); auto; intros; try (apply copyin_quiet); try (apply WM; lia); try (apply LAY; auto; lia).
  Qed.
  Definition mem_p (mem : nat -> @memory V) (q : nat) : @memory V :=
    fun a => match fst a with Shm 0 => mem q (rn q (snd a)) | _ => mem q a end.
  Lemma red_start mem q x : q < N -> exec_list op (pre q) (mem_p mem q) (Shm 0, x) = mem q (rn q x).
  Proof.
    clear SL PO. intros Hq. destruct (le_lt_dec T x) as [L|L].
    - rewrite copyin_beyond by exact L. reflexivity.
    - destruct (moffset_cover mc N x L) as (f & i & Hf & Hi & ->).
      destruct (copyin_reduce_ok op N mc (nth 0 (alg q) empty_block) (mem_p mem q)) as [_ B].
      { intros n Hn. rewrite (LAY 0) by (auto; lia). apply Nat.mod_upper_bound. lia. }
      cbv zeta in B. rewrite FIRST in *. assert (NL : f < num_lines (rs_first N)) by (cbn; lia).
      assert (FR : forall n, n < N -> frac (lines (rs_first N) n) = n).
      { intros n Hn. rewrite <- (FIRST q), (LAY 0) by (rewrite ?FIRST; auto; cbn; lia). now apply Nat.mod_small. }
      assert (EO : off mc (fun n => frac (lines (rs_first N) n)) f = moffset mc f).
      { rewrite moffset_off. apply off_cong. intros k Hk. now rewrite FR by lia. }
      specialize (B f i NL). rewrite FR, EO in B by exact Hf. rewrite B; [|exact Hi|apply moffset_lt; exact Hf].
      unfold mem_p. cbn [fst snd]. rewrite ren_low by exact L. reflexivity.
  Qed.
  Section Code.
    Context (q : nat) (Hq : q < N) (base : nat -> nat) (LO : laid_out base (program N alg size_of pre post q)).
    Lemma red_code alt : final_code base alt T big (program N alg size_of pre post q) = phased K FF q.
    Proof.
      clear FIRST. destruct LO as (B0 & MONO & FIT). rewrite <- whole_T.
      apply (final_is N alg nb size_of pre post w0 wk big); auto; intros.
      - apply WM; lia.
      - apply LAY; auto; lia.
      - apply copyin_quiet.
      - apply Forall_forall. intros i I. assert (X := proj1 (Forall_forall _ _) (copyin_reduce_in N mc (nth 0 (alg q) empty_block)) i I).
        assert (Y : fits_in base i) by (apply (proj1 (Forall_forall _ _) FIT); unfold program; apply in_or_app; left; exact I).
        destruct i as [| | | |d s n|]; try (exfalso; exact X); try exact Logic.I;
        destruct d as [[| |[|]] y]; try (exfalso; exact X); destruct s as [[| |] z]; try (exfalso; exact X); destruct Y as [Y _]; cbn in Y; lia.
    Qed.
  End Code.
  (* the shared memory of the original code after the exchange *)
  Local Notation AP mem := (exchanged op N alg nb mc pre post mem).
  Local Notation END mem q := (exec_list op (FF K q) (memat op FF mem K q)).
  Lemma red_sim mem q x : q < N -> AP (mem_p mem) q (Shm 0, x) = END mem q (rn q x).
  Proof.
    clear SL PO. intros Hq. unfold exchanged. rewrite exec_LF. rewrite <- whole_T.
    apply (sim N alg nb size_of pre post w0 wk big); auto; intros; try (apply copyin_quiet); try (apply WM; lia); try (apply LAY; auto; lia).
    rewrite whole_T. now apply red_start.
  Qed.
  Lemma red_frame mem q a : q < N -> (forall x, T <= x -> a <> rn q x) -> END mem q a = mem q a.
  Proof.
    clear SL PO. intros Hq. rewrite exec_LF. rewrite <- whole_T.
    apply (frame N alg nb size_of pre post w0 wk big) with (memP := mem_p mem); auto; intros; try (apply copyin_quiet); try (apply WM; lia); try (apply LAY; auto; lia).
    rewrite whole_T. now apply red_start.
  Qed.
  Lemma red_result mem q len value : q < N -> lo N size_of (w0 q) + len = hi N size_of (w0 q) (wk q) ->
    (forall j, j < len -> AP (mem_p mem) q (Shm 0, lo N size_of (w0 q) + j) = value j) ->
    RawSpec.receives_only len (mem q) (END mem q) value.
  Proof.
    clear SL PO. intros Hq HL HO. assert (W := red_window q Hq). split; [|split].
    - intros j Hj. rewrite <- HO by exact Hj. rewrite red_sim by exact Hq. rewrite (ren_mid _ _ _ _ W) by lia.
      do 2 f_equal. lia.
    - intros j Hj. apply red_frame; auto. intros x Hx. unfold ren. destruct (Nat.ltb_spec x T); [lia|].
      destruct (Nat.leb_spec (lo N size_of (w0 q)) x); cbn [andb]; [|discriminate]. destruct (Nat.ltb_spec x (hi N size_of (w0 q) (wk q))); [|discriminate].
      intros [= E]. lia.
    - intros j. apply red_frame; auto. intros x Hx. unfold ren. destruct (Nat.ltb_spec x T); [lia|]. destruct (_ && _); discriminate.
  Qed.
End Reduced.

(* ---------- allreduce ---------- *)
Section Allreduce.
  Context {V : Type} (op : V -> V -> V).
  Context (op_assoc : forall a b c, op a (op b c) = op (op a b) c) (op_comm : forall a b, op a b = op b a).
  Context (down mid up : list Z) (B : balanced down mid up) (count : nat).
  Local Notation ports := (down ++ mid ++ up).
  Local Notation N := (node_count (mid ++ up)).
  Local Notation alg := (generate_recursive false ports).
  Local Notation nb := (length ports + 2).
  Local Notation mc := (split_count count N).
  Local Notation size_of := (mmsizes mc N).
  Local Notation pre := (fun q : nat => copyin_reduce N mc (nth 0 (alg q) empty_block)).
  Local Notation post := (fun q : nat => copyout_all mc (nth (nb - 1) (alg q) empty_block) (moffset mc N)).
  Local Notation FF := (LF N alg nb size_of true).
  Local Notation K := (nb - 1).

  Lemma ar_tidy m : 1 <= m < nb -> tidy N (fun _ => 0) (fun _ => N) (fun q => nth m (alg q) empty_block).
  Proof.
    intros Hm. destruct m as [|m]; [lia|]. eapply tidy_ext; [|apply (allreduce_tidy down mid up m B)].
    intros q. now rewrite generate_allreduce by auto.
  Qed.
  Lemma ar_tail q : nth K (alg q) empty_block = ar_last N.
  Proof.
    destruct B as (Hd & Hm & Hu & Hi & Hne). rewrite generate_allreduce by exact B. rewrite allreduce_core_eq by auto.
    rewrite app_comm_cons, !app_assoc. rewrite <- product_app.
    set (l := _ ++ up_stages _ _ _ _ _ _).
    assert (E : length l = length down + length mid + length up + 1).
    { unfold l. rewrite !app_length. cbn [length]. rewrite ?app_length, rs_stages_length, mid_stages_length, up_stages_length. lia. }
    rewrite app_nth2 by (rewrite E, !app_length; lia). replace (_ - length l) with 0 by (rewrite E, !app_length; lia). reflexivity.
  Qed.
  Lemma ar_last_out n : existsb is_user (sendto (lines (ar_last N) n)) = true <-> N <= n < 2 * N.
  Proof.
    unfold ar_last. cbn [lines]. split.
    - intros H. destruct (le_lt_dec N n) as [L|L]; [destruct (le_lt_dec (2 * N) n) as [L2|L2]; [|lia]|];
        (rewrite sendto_none in H; [discriminate|]; intros v Hv; apply in_map_iff in Hv; destruct Hv as (l & [= -> _] & Hl); apply in_seq in Hl; lia).
    - intros H. rewrite (sendto_some _ _ n [((-1)%Z, n mod N)]); [reflexivity| |].
      + apply in_map_iff. exists n. split; [reflexivity|]. apply in_seq. lia.
      + intros v Hv. apply in_map_iff in Hv. destruct Hv as (l & [= -> <-] & _). reflexivity.
  Qed.
  Lemma ar_last_frac n : frac (lines (ar_last N) n) = n mod N.
  Proof. unfold ar_last. cbn [lines]. now rewrite frac_writes. Qed.
  Lemma ar_total : moffset mc N = count.
  Proof. apply split_sum, product_pos. Qed.
  Lemma ar_phases : phases_ok N K FF.
  Proof.
    destruct (ar_N down mid up B) as [Np _].
    apply (red_phases N alg nb mc post (fun _ => 0) (fun _ => N)); auto; intros; try lia.
    - now apply ar_tidy.
    - now apply generated_allreduce_matched.
    - now apply (ar_lay down mid up B m).
    - apply copyout_quiet.
  Qed.
  Lemma ar_final q base alt : q < N -> laid_out base (allreduce_program (alg q) count N q) ->
    allreduce_final (alg q) base alt count N q = phased K FF q.
  Proof.
    intros Hq LO. destruct (ar_N down mid up B) as [Np _].
    assert (EP : allreduce_program (alg q) count N q = program N alg size_of pre post q).
    { unfold allreduce_program, program, between. rewrite hd_first, (last_nth N alg nb) by (auto; now apply generated_allreduce_same_length).
      now rewrite split_sum by exact Np. }
    unfold allreduce_final. rewrite EP in *. rewrite <- ar_total at 1.
    apply (red_code N alg nb mc post (fun _ => 0) (fun _ => N)); auto; intros; try lia.
    - now apply ar_tidy.
    - now apply generated_allreduce_matched.
    - now apply (ar_lay down mid up B m).
    - apply copyout_quiet.
    - now apply generated_allreduce_same_length.
    - apply copyout_all_in.
  Qed.
  Lemma ar_end mem q : q < N ->
    RawSpec.receives_only count (mem q) (exec_list op (FF K q) (memat op FF mem K q)) (fun j => total op (fun p => mem p (Sendbuf, j)) N).
  Proof.
    intros Hq. destruct (ar_N down mid up B) as [Np _].
    apply (red_result op N alg nb mc post (fun _ => 0) (fun _ => N)); auto; intros; try lia.
    - now apply ar_tidy.
    - now apply generated_allreduce_matched.
    - now apply (ar_lay down mid up B m).
    - now apply ar_first.
    - apply copyout_quiet.
    - unfold lo, hi. rewrite !Nat.add_0_r, off_next by exact Np. rewrite (whole_T N mc). f_equal. symmetry. exact ar_total.
    - cbv beta. replace (lo N size_of 0) with (moffset mc N) by (unfold lo; rewrite Nat.add_0_r; symmetry; now apply off_modular).
      set (mm := mem_p N mc (fun _ => 0) (fun _ => N) mem).
      destruct (ar_lock op op_assoc op_comm down mid up B count mm q Hq) as (R & _). specialize (R j H).
      change (fun p => mm p (Sendbuf, j)) with (fun p => mem p (Sendbuf, j)) in R. rewrite <- R. clear R.
      rewrite (whole_end op N alg nb mc pre post) by (auto; intros; try lia; try apply copyin_quiet; try apply copyout_quiet; now apply generated_allreduce_matched).
      rewrite <- ar_total in H.
      destruct (copyout_all_ok op N mc (ar_last N) (fun j => exchanged op N alg nb mc pre post mm q (Shm 0, moffset mc N + j)) (exchanged op N alg nb mc pre post mm q)) as [_ A].
      + intros n i Hn O Hi. apply ar_last_out in O. rewrite !ar_last_frac in *. split; [apply Nat.mod_upper_bound; lia|].
        f_equal. f_equal. rewrite <- (whole_T N mc). 
        replace (off mc (fun k => frac (lines (ar_last N) k)) n) with (off size_of (fun k => k mod N) n).
        * replace n with (n mod N + N) at 1 by (assert (n mod N = n - N) by (symmetry; apply Nat.mod_unique with 1; lia); lia).
          rewrite off_next by exact Np. rewrite off_modular by (assert (X := Nat.mod_upper_bound n N); lia). lia.
        * apply off_cong. intros k Hk. rewrite ar_last_frac. unfold mmsizes. now rewrite Nat.mod_mod by lia.
      + intros f Hf. exists (f + N). cbn [ar_last num_lines]. split; [lia|]. split; [apply ar_last_out; lia|].
        rewrite ar_last_frac. symmetry. apply Nat.mod_unique with 1; lia.
      + cbv zeta in A. rewrite ar_tail in *. rewrite A by exact H. reflexivity.
  Qed.
End Allreduce.

(* ---------- reduce_scatter ---------- *)
Lemma scatter_order base alt total ls : use_sendbuf_recvbuf total false (optimised_scatter base alt ls) = final_code base alt total false ls.
Proof.
  unfold final_code, optimised_scatter, optimised. f_equal. unfold clean_barriers. destruct alt; now rewrite ?first_no, ?clean_no, ?first_no, ?clean_no.
Qed.
Section ReduceScatter.
  Context {V : Type} (op : V -> V -> V).
  Context (op_assoc : forall a b c, op a (op b c) = op (op a b) c) (op_comm : forall a b, op a b = op b a).
  Context (ports : list Z) (NZ : nonzero ports) (LN : (last ports 0 < 0)%Z) (mc : nat -> nat).
  Local Notation N := (node_count ports).
  Local Notation alg := (generate_recursive false ports).
  Local Notation nb := (length ports + 2).
  Local Notation size_of := (mmsizes mc N).
  Local Notation pre := (fun q : nat => copyin_reduce N mc (nth 0 (alg q) empty_block)).
  Local Notation post := (fun q : nat => copyout_own mc (nth (nb - 1) (alg q) empty_block) (mc q)).
  Local Notation FF := (LF N alg nb size_of false).
  Local Notation K := (nb - 1).

  Lemma sc_tidy m : 1 <= m < nb -> tidy N (fun q => q) (fun _ => 1) (fun q => nth m (alg q) empty_block).
  Proof.
    intros Hm. destruct m as [|m]; [lia|]. eapply tidy_ext; [|apply (reduce_scatter_tidy ports m NZ)].
    intros q. now rewrite generate_reduce_scatter by auto.
  Qed.
  Lemma sc_phases : phases_ok N K FF.
  Proof.
    destruct (rs_N ports) as [Np _].
    apply (red_phases N alg nb mc post (fun q => q) (fun _ => 1)); auto; intros; try lia; try discriminate.
    - now apply sc_tidy.
    - now apply rs_match.
    - now apply (rs_lay ports LN m).
    - apply own_quiet.
  Qed.
  Lemma sc_final q base alt : q < N -> laid_out base (reduce_scatter_program (alg q) mc N q) ->
    reduce_scatter_final (alg q) base alt mc N q = phased K FF q.
  Proof.
    intros Hq LO. destruct (rs_N ports) as [Np _].
    assert (EP : reduce_scatter_program (alg q) mc N q = program N alg size_of pre post q).
    { unfold reduce_scatter_program, program, between. rewrite hd_first, (last_nth N alg nb) by (auto; now apply rs_len). reflexivity. }
    unfold reduce_scatter_final. rewrite scatter_order. rewrite EP in *.
    apply (red_code N alg nb mc post (fun q => q) (fun _ => 1)); auto; intros; try lia; try discriminate.
    - now apply sc_tidy.
    - now apply rs_match.
    - now apply (rs_lay ports LN m).
    - apply own_quiet.
    - now apply rs_len.
    - apply copyout_own_in.
  Qed.
  Lemma sc_end mem q : q < N ->
    RawSpec.receives_only (mc q) (mem q) (exec_list op (FF K q) (memat op FF mem K q)) (fun j => total op (fun p => mem p (Sendbuf, moffset mc q + j)) N).
  Proof.
    intros Hq. destruct (rs_N ports) as [Np _].
    assert (LO : lo N size_of q = moffset mc N + moffset mc q).
    { unfold lo. rewrite Nat.add_comm, off_next by exact Np. rewrite (whole_T N mc), off_modular by lia. lia. }
    apply (red_result op N alg nb mc post (fun q => q) (fun _ => 1)); auto; intros; try lia; try discriminate.
    - now apply sc_tidy.
    - now apply rs_match.
    - now apply (rs_lay ports LN m).
    - now apply rs_head.
    - apply own_quiet.
    - rewrite LO. unfold hi. replace (N + q + 1) with (S q + N) by lia. rewrite off_next by exact Np. rewrite (whole_T N mc), off_modular, moffset_S by lia. lia.
    - cbv beta. rewrite LO.
      set (mm := mem_p N mc (fun q => q) (fun _ => 1) mem).
      destruct (rs_lock op op_assoc op_comm ports NZ LN mc mm q Hq) as (R & _). specialize (R j H).
      change (fun p => mm p (Sendbuf, moffset mc q + j)) with (fun p => mem p (Sendbuf, moffset mc q + j)) in R. rewrite <- R. clear R.
      rewrite (whole_end op N alg nb mc pre post) by (auto; intros; try lia; try apply copyin_quiet; try apply own_quiet; now apply rs_match).
      rewrite rs_tail by assumption. set (ex := exchanged op N alg nb mc pre post mm q).
      assert (SO : forall n, sendto (lines (rs_last N q) n) <> [] <-> n = N + q).
      { assert (D : 2 * N / 2 = N) by (rewrite Nat.mul_comm; apply Nat.div_mul; lia).
        intros n. unfold rs_last. cbn [lines]. rewrite D. split.
        - intros X. destruct (Nat.eq_dec n (N + q)) as [|E]; auto. exfalso. apply X. rewrite sendto_none; [reflexivity|].
          intros v Hv. apply in_flat_map in Hv. destruct Hv as (l & Hl & Hv). apply in_seq in Hl.
          destruct (Nat.eqb_spec (l - N) q); [|destruct Hv]. destruct Hv as [[= -> _]|[]]. lia.
        - intros ->. rewrite (sendto_some _ _ (N + q) [((-1)%Z, q)]); [discriminate| |].
          + apply in_flat_map. exists (N + q). split; [apply in_seq; lia|]. replace (N + q - N) with q by lia. rewrite Nat.eqb_refl. now left.
          + intros v Hv. apply in_flat_map in Hv. destruct Hv as (l & Hl & Hv).
            destruct (Nat.eqb_spec (l - N) q) as [E|]; [|destruct Hv]. destruct Hv as [[= -> <-]|[]]. now rewrite E. }
      destruct (copyout_own_ok op N mc (rs_last N q) (N + q) (mc q) ex) as [_ A].
      + cbn [rs_last num_lines]. lia.
      + now apply SO.
      + intros n Hn. destruct (sendto (lines (rs_last N q) n)) eqn:E; auto. exfalso. assert (X : n = N + q) by (apply SO; rewrite E; discriminate). lia.
      + cbv zeta in A. rewrite A by exact H. do 3 f_equal.
        replace (off mc (fun k => frac (lines (rs_last N q) k)) (N + q)) with (off size_of (fun k => k mod N) (N + q)).
        * symmetry. exact LO.
        * apply off_cong. intros k Hk. unfold rs_last. cbn [lines]. rewrite frac_writes. cbn [frac blank]. unfold mmsizes. now rewrite Nat.mod_mod by lia.
  Qed.
End ReduceScatter.
