(* Schedules with tabulated lines, for evaluation, and the fact that all
   generators give the same for blocks with the same lines. *)
From Verif Require Import Base SchedModel CyclicModel CycRedModel RawModel RootModel BcastModel.
Local Ltac Zify.zify_post_hook ::= idtac.

Definition peq (b c : block) : Prop := num_lines b = num_lines c /\ forall n, lines b n = lines c n.
Definition freeze (b : block) : block :=
  let t := map (lines b) (seq 0 (num_lines b)) in
  Block (num_lines b) (fun i => match nth_error t i with Some l => l | None => lines b i end).
Lemma peq_refl b : peq b b.
Proof. now split. Qed.
Lemma peq_trans a b c : peq a b -> peq b c -> peq a c.
Proof. intros [A B] [C D]. split; [congruence|]. intros n. now rewrite B, D. Qed.
Lemma freeze_peq b : peq (freeze b) b.
Proof.
  split; [reflexivity|]. intros n. unfold freeze. cbn [lines].
  destruct (nth_error (map (lines b) (seq 0 (num_lines b))) n) as [l|] eqn:E; [|reflexivity].
  destruct (Nat.lt_ge_cases n (num_lines b)) as [H|H].
  - rewrite nth_error_map in E. rewrite (nth_error_nth' (seq 0 (num_lines b)) 0) in E by (now rewrite seq_length).
    rewrite seq_nth in E by exact H. cbn in E. now injection E as <-.
  - assert (length (map (lines b) (seq 0 (num_lines b))) <= n) by (now rewrite map_length, seq_length).
    apply nth_error_None in H0. congruence.
Qed.
Lemma frozen b c : peq b c -> peq (freeze b) c.
Proof. intros H. exact (peq_trans _ _ _ (freeze_peq b) H). Qed.

Lemma fold_left_ext2 {A B} (f g : A -> B -> A) l : (forall a x, f a x = g a x) -> forall a, fold_left f l a = fold_left g l a.
Proof. intros H. induction l as [|x l IH]; intros a; [reflexivity|]. cbn. now rewrite H, IH. Qed.
Lemma existsb_ext2 {A} (f g : A -> bool) l : (forall x, f x = g x) -> existsb f l = existsb g l.
Proof. intros H. induction l as [|x l IH]; [reflexivity|]. cbn. now rewrite H, IH. Qed.
Lemma forallb_ext2 {A} (f g : A -> bool) l : (forall x, f x = g x) -> forallb f l = forallb g l.
Proof. intros H. induction l as [|x l IH]; [reflexivity|]. cbn. now rewrite H, IH. Qed.
Lemma find_ext2 {A} (f g : A -> bool) l : (forall x, f x = g x) -> find f l = find g l.
Proof. intros H. induction l as [|x l IH]; [reflexivity|]. cbn. now rewrite H, IH. Qed.
Lemma filter_ext2 {A} (f g : A -> bool) l : (forall x, f x = g x) -> filter f l = filter g l.
Proof. intros H. apply filter_ext. exact H. Qed.

(* ---------- the cyclic reductions ---------- *)
Lemma peq_send N s g p t b c : peq b c -> peq (cr_send N s g p t b) (cr_send N s g p t c).
Proof. intros [A B]. split; [reflexivity|]. intros n. unfold cr_send. cbn [lines]. now rewrite !B. Qed.
Lemma peq_add s b c : peq b c -> peq (cr_add s b) (cr_add s c).
Proof.
  intros [A B]. split; [exact A|]. intros n. unfold cr_add. cbn [lines]. rewrite A, !B. f_equal.
  destruct (n <? s); [|reflexivity]. apply filter_ext2. intros m. now rewrite B.
Qed.
Lemma peq_spread N s0 s1 g p t b c : peq b c -> peq (cr_spread N s0 s1 g p t b) (cr_spread N s0 s1 g p t c).
Proof. intros [A B]. split; [reflexivity|]. intros n. unfold cr_spread. cbn [lines]. now rewrite !B. Qed.
Lemma from_of_peq b c n : peq b c -> from_of b n = from_of c n.
Proof. intros [A B]. unfold from_of. now rewrite B. Qed.
Lemma peq_collect b c : peq b c -> peq (cr_collect b) (cr_collect c).
Proof.
  intros H. assert (F := fun n => from_of_peq b c n H). destruct H as [A B]. split; [exact A|]. intros n.
  unfold cr_collect. cbn [lines]. rewrite F, B. f_equal. destruct (from_of c n); [|reflexivity].
  rewrite (find_ext2 _ (fun j => (frac (lines c j) =? frac (lines c n)) && match from_of c j with Some q' => negb (z =? q')%Z | None => true end)); [reflexivity|].
  intros j. now rewrite B, F.
Qed.
Lemma peq_last NL b c : peq b c -> peq (cr_last NL b) (cr_last NL c).
Proof.
  intros [A B]. split; [reflexivity|]. intros n. unfold cr_last. cbn [lines]. rewrite B.
  rewrite (existsb_ext2 _ (fun m => frac (lines c m) =? frac (lines c n))); [reflexivity|]. intros m. now rewrite B.
Qed.
Lemma Forall2_last {A} (R : A -> A -> Prop) l k d e : Forall2 R l k -> R d e -> R (last l d) (last k e).
Proof. intros H. revert d e. induction H as [|x y l k Hx H IH]; intros d e Hd; [exact Hd|]. destruct H; [exact Hx|]. apply IH. exact Hd. Qed.
Lemma Forall2_rev {A} (R : A -> A -> Prop) l k : Forall2 R l k -> Forall2 R (rev l) (rev k).
Proof. induction 1 as [|x y l k Hx H IH]; [constructor|]. cbn. apply Forall2_app; [exact IH|]. repeat constructor. exact Hx. Qed.

Fixpoint fz_down (N s g : nat) (ports : list nat) (task : nat) (prev : block) : list block :=
  match ports with
  | [] => []
  | p :: r =>
    let x := freeze (cr_send N s (shrink g p) p task prev) in
    let y := freeze (cr_add s x) in
    x :: y :: fz_down N (shrink s p) (shrink g p) r task y
  end.
Lemma down_peq N task ports : forall s g b c, peq b c -> Forall2 peq (fz_down N s g ports task b) (cr_down N s g ports task c).
Proof.
  induction ports as [|p r IH]; intros s g b c H; [constructor|]. cbn [fz_down cr_down]. cbv zeta.
  assert (X := frozen _ _ (peq_send N s (shrink g p) p task b c H)). assert (Y := frozen _ _ (peq_add s _ _ X)).
  constructor; [exact X|]. constructor; [exact Y|]. now apply IH.
Qed.
Fixpoint fz_up (N s g : nat) (ports : list nat) (task : nat) (prev : block) : list block :=
  match ports with
  | [] => []
  | p :: r =>
    let x := freeze (cr_spread N (s * g) (s * (if N <? g * (p + 1) then N else g * (p + 1))) g p task prev) in
    let y := freeze (cr_collect x) in
    x :: y :: fz_up N s (g * (p + 1)) r task y
  end.
Lemma up_peq N s task ports : forall g b c, peq b c -> Forall2 peq (fz_up N s g ports task b) (cr_up N s g ports task c).
Proof.
  induction ports as [|p r IH]; intros g b c H; [constructor|]. cbn [fz_up cr_up]. cbv zeta.
  assert (X := frozen _ _ (peq_spread N (s * g) (s * (if N <? g * (p + 1) then N else g * (p + 1))) g p task b c H)).
  assert (Y := frozen _ _ (peq_collect _ _ X)). constructor; [exact X|]. constructor; [exact Y|]. now apply IH.
Qed.

(* the set of lines in use; u and v agree everywhere *)
Definition ueq (u v : nat -> bool) : Prop := forall n, u n = v n.
Lemma upds_ueq (l : list nat) : forall u v, ueq u v ->
  ueq (fold_left (fun u r => upd Nat.eq_dec u r true) l u) (fold_left (fun u r => upd Nat.eq_dec u r true) l v).
Proof. induction l as [|r l IH]; intros u v H; [exact H|]. cbn. apply IH. intros n. unfold upd. destruct (Nat.eq_dec _ _); [reflexivity|apply H]. Qed.
Lemma mark_ueq b c n u v : peq b c -> ueq u v -> ueq (cr_mark b u n) (cr_mark c v n).
Proof. intros [A B] H. unfold cr_mark. rewrite (H n), B. destruct (v n); [|exact H]. now apply upds_ueq. Qed.
Lemma marks_ueq b c l : peq b c -> forall u v, ueq u v -> ueq (fold_left (cr_mark b) l u) (fold_left (cr_mark c) l v).
Proof. intros P. induction l as [|n l IH]; intros u v H; [exact H|]. cbn. apply IH. now apply mark_ueq. Qed.
Lemma passes_ueq bs cs : Forall2 peq bs cs -> forall u v, ueq u v ->
  ueq (fold_left (fun u b => fold_left (cr_mark b) (rev (seq 0 (num_lines b))) u) bs u)
      (fold_left (fun u b => fold_left (cr_mark b) (rev (seq 0 (num_lines b))) u) cs v).
Proof. induction 1 as [|b c bs cs P F IH]; intros u v H; [exact H|]. cbn. apply IH. rewrite (proj1 P). now apply marks_ueq. Qed.
Definition ufreeze (NL : nat) (u : nat -> bool) : nat -> bool :=
  let t := map u (seq 0 NL) in fun i => match nth_error t i with Some x => x | None => u i end.
Lemma ufreeze_ueq NL u : ueq (ufreeze NL u) u.
Proof.
  intros n. unfold ufreeze. destruct (nth_error (map u (seq 0 NL)) n) as [l|] eqn:E; [|reflexivity].
  destruct (Nat.lt_ge_cases n NL) as [H|H].
  - rewrite nth_error_map in E. rewrite (nth_error_nth' (seq 0 NL) 0) in E by (now rewrite seq_length).
    rewrite seq_nth in E by exact H. cbn in E. now injection E as <-.
  - assert (length (map u (seq 0 NL)) <= n) by (now rewrite map_length, seq_length). apply nth_error_None in H0. congruence.
Qed.
Fixpoint fz_closure (fuel NL : nat) (bs : list block) (u : nat -> bool) : nat -> bool :=
  match fuel with
  | O => u
  | S k => let u' := ufreeze NL (cr_pass bs u) in
           if forallb (fun n => Bool.eqb (u n) (u' n)) (seq 0 NL) then u else fz_closure k NL bs u'
  end.
Lemma closure_ueq fuel NL bs cs : Forall2 peq bs cs -> forall u v, ueq u v -> ueq (fz_closure fuel NL bs u) (cr_closure fuel NL cs v).
Proof.
  intros P. induction fuel as [|k IH]; intros u v H; [exact H|]. cbn [fz_closure cr_closure]. cbv zeta.
  assert (E : ueq (ufreeze NL (cr_pass bs u)) (cr_pass cs v)).
  { intros n. rewrite ufreeze_ueq. apply passes_ueq; [now apply Forall2_rev|exact H]. }
  rewrite (forallb_ext2 _ (fun n => Bool.eqb (v n) (cr_pass cs v n))) by (intros n; now rewrite (H n), (E n)).
  destruct (forallb _ _); [exact H|now apply IH].
Qed.
Definition fz_used (bs : list block) (final : block) : nat -> bool :=
  fz_closure (S (num_lines final)) (num_lines final) bs
    (ufreeze (num_lines final) (fun n => (n <? num_lines final) && (length (sendto (lines final n)) =? 1))).
Lemma used_ueq bs cs b c : Forall2 peq bs cs -> peq b c -> ueq (fz_used bs b) (cr_used cs c).
Proof.
  intros F [A B]. unfold fz_used, cr_used. rewrite A. apply closure_ueq; [exact F|]. intros n. rewrite ufreeze_ueq. now rewrite B.
Qed.
Lemma place_ueq u v r : ueq u v -> cr_place u r = cr_place v r.
Proof. intros H. unfold cr_place. f_equal. apply filter_ext2. exact H. Qed.
Lemma keep_peq u v last b c : ueq u v -> peq b c -> peq (cr_keep u last b) (cr_keep v last c).
Proof.
  intros H [A B]. unfold cr_keep. rewrite A, (filter_ext2 u v _ H). split; [reflexivity|]. intros n. cbn [lines]. rewrite !B. f_equal.
  - rewrite (filter_ext2 (fun e => u (snd e)) (fun e => v (snd e))) by (intros e; apply H). apply map_ext. intros e. now rewrite (place_ueq u v _ H).
  - apply map_ext. intros e. now rewrite (place_ueq u v _ H).
  - apply map_ext. intros e. now rewrite (place_ueq u v _ H).
Qed.
Definition fz_reduce (N : nat) (down up : list nat) (task : nat) : list block :=
  let first := freeze (cr_first N task) in
  let ds := fz_down N N N down task first in
  let s := fold_left shrink down N in
  let middle := last ds first in
  match up with
  | [] => first :: ds ++ [freeze (cr_last s middle)]
  | _ :: _ =>
    let us := fz_up N s 1 up task middle in
    let final := freeze (cr_last (num_lines (last us middle)) (last us middle)) in
    let u := fz_used us final in
    first :: ds ++ map (fun b => freeze (cr_keep u false b)) us ++ [freeze (cr_keep u true final)]
  end.
Lemma reduce_peq N down up task : Forall2 peq (fz_reduce N down up task) (cyclic_reduce N down up task).
Proof.
  unfold fz_reduce, cyclic_reduce. cbv zeta.
  assert (F := freeze_peq (cr_first N task)). assert (D := down_peq N task down N N _ _ F).
  assert (M := Forall2_last _ _ _ _ _ D F). destruct up as [|p up].
  - constructor; [exact F|]. apply Forall2_app; [exact D|]. repeat constructor; try reflexivity. intros n. now apply frozen, peq_last.
  - assert (U := up_peq N (fold_left shrink down N) task (p :: up) 1 _ _ M).
    assert (L := Forall2_last _ _ _ _ _ U M). assert (E := frozen _ _ (peq_last (num_lines (last (fz_up N (fold_left shrink down N) 1 (p :: up) task
      (last (fz_down N N N down task (freeze (cr_first N task))) (freeze (cr_first N task)))) (last (fz_down N N N down task (freeze (cr_first N task))) (freeze (cr_first N task))))) _ _ L)).
    assert (L1 := proj1 L). rewrite <- L1.
    assert (Q := used_ueq _ _ _ _ U E).
    constructor; [exact F|]. apply Forall2_app; [exact D|]. apply Forall2_app.
    + clear - U Q. revert Q. generalize dependent (cr_up N (fold_left shrink down N) 1 (p :: up) task (last (cr_down N N N down task (cr_first N task)) (cr_first N task))).
      intros l U. match goal with |- context [map (fun b => freeze (cr_keep ?w false b))] => generalize w end. intros w.
      match goal with |- context [map (cr_keep ?v false)] => generalize v end. intros v Q.
      induction U as [|b c bs cs P F IH]; [constructor|]. cbn. constructor; [|exact IH]. now apply frozen, keep_peq.
    + constructor; [|constructor]. now apply frozen, keep_peq.
Qed.

(* ---------- the code ---------- *)
Section Code.
  Context (size_of : nat -> nat) (N node : nat) (b c : block) (H : peq b c).
  Let A := proj1 H.
  Let B := proj2 H.
  Lemma size_peq n : line_size size_of b n = line_size size_of c n.
  Proof. unfold line_size. now rewrite B. Qed.
  Lemma start_peq n : line_start size_of b n = line_start size_of c n.
  Proof. unfold line_start. apply fold_left_ext2. intros a k. now rewrite size_peq. Qed.
  Lemma from_peq q n : receives_from node b q n = receives_from node c q n.
  Proof. unfold receives_from. now rewrite B. Qed.
  Lemma recv_size_peq q : recv_size size_of node b q = recv_size size_of node c q.
  Proof. unfold recv_size. rewrite A. apply fold_left_ext2. intros a n. now rewrite from_peq, size_peq. Qed.
  Lemma receives_peq os : forall k, receives size_of N node b os k = receives size_of N node c os k.
  Proof. induction os as [|o os IH]; intros k; [reflexivity|]. cbn [receives]. rewrite recv_size_peq. destruct (_ =? 0); now rewrite IH. Qed.
  Lemma pack_entries_peq q n k es : forall add, pack_entries size_of node b q n k es add = pack_entries size_of node c q n k es add.
  Proof. induction es as [|e es IH]; intros add; [reflexivity|]. cbn [pack_entries]. now rewrite size_peq, start_peq, !IH. Qed.
  Lemma pack_lines_peq q k ns : forall add, pack_lines size_of node b q k ns add = pack_lines size_of node c q k ns add.
  Proof.
    induction ns as [|n ns IH]; intros add; [reflexivity|]. cbn [pack_lines]. rewrite B, pack_entries_peq.
    destruct (pack_entries _ _ _ _ _ _ _ _) as [x y]. now rewrite IH.
  Qed.
  Lemma sends_peq os : forall k, sends size_of N node b os k = sends size_of N node c os k.
  Proof.
    induction os as [|o os IH]; intros k; [reflexivity|]. cbn [sends]. rewrite A, pack_lines_peq.
    destruct (pack_lines _ _ _ _ _ _ _) as [x y]. now rewrite !IH.
  Qed.
  Lemma first_start_peq q ns : forall j, first_start size_of node b q ns j = first_start size_of node c q ns j.
  Proof. induction ns as [|n ns IH]; intros j; [reflexivity|]. cbn [first_start]. now rewrite from_peq, size_peq, IH. Qed.
  Lemma last_receiving_peq q : last_receiving node b q = last_receiving node c q.
  Proof. unfold last_receiving. rewrite A. apply fold_left_ext2. intros a n. now rewrite from_peq. Qed.
  Lemma unpacks_peq os : forall k, unpacks size_of N node b os k = unpacks size_of N node c os k.
  Proof.
    induction os as [|o os IH]; intros k; [reflexivity|]. cbn [unpacks]. rewrite recv_size_peq, last_receiving_peq, first_start_peq, A, B.
    destruct (_ =? 0); now rewrite !IH.
  Qed.
  Lemma reduces_peq : reduces size_of b = reduces size_of c.
  Proof.
    unfold reduces. rewrite A. apply flat_map_ext. intros n. rewrite B. apply flat_map_ext. intros r. now rewrite size_peq, !start_peq.
  Qed.
  Lemma copyreduces_peq : copyreduces size_of b = copyreduces size_of c.
  Proof.
    unfold copyreduces. rewrite A. apply flat_map_ext. intros n. rewrite B, size_peq. destruct (_ =? 0); [reflexivity|].
    destruct (copyreducefrom _) as [|r rs]; [reflexivity|]. rewrite !start_peq. f_equal. apply map_ext. intros x. now rewrite start_peq.
  Qed.
  Lemma block_peq first : block_code size_of N node b first = block_code size_of N node c first.
  Proof.
    unfold block_code, post_code, after_code. cbv zeta. now rewrite receives_peq, sends_peq, unpacks_peq, reduces_peq, copyreduces_peq.
  Qed.

  Lemma kind_peq q n : recv_kind node b q n = recv_kind node c q n.
  Proof. unfold recv_kind. now rewrite B. Qed.
  Lemma kind_size_peq q k : kind_size size_of node b q k = kind_size size_of node c q k.
  Proof. unfold kind_size. rewrite A. apply fold_left_ext2. intros a n. now rewrite kind_peq, size_peq. Qed.
  Lemma receives2_peq os : forall k, receives2 size_of N node b os k = receives2 size_of N node c os k.
  Proof. induction os as [|o os IH]; intros k; [reflexivity|]. cbn [receives2]. cbv zeta. now rewrite !kind_size_peq, IH. Qed.
  Lemma pack_entries2_peq q n k es : forall add adds, pack_entries2 size_of node b q n k es add adds = pack_entries2 size_of node c q n k es add adds.
  Proof. induction es as [|e es IH]; intros add adds; [reflexivity|]. cbn [pack_entries2]. cbv zeta. now rewrite size_peq, start_peq, !IH. Qed.
  Lemma pack_lines2_peq q k ns : forall add adds, pack_lines2 size_of node b q k ns add adds = pack_lines2 size_of node c q k ns add adds.
  Proof.
    induction ns as [|n ns IH]; intros add adds; [reflexivity|]. cbn [pack_lines2]. rewrite B, pack_entries2_peq.
    destruct (pack_entries2 _ _ _ _ _ _ _ _ _) as [[x y] z]. now rewrite IH.
  Qed.
  Lemma sends2_peq os : forall k, sends2 size_of N node b os k = sends2 size_of N node c os k.
  Proof.
    induction os as [|o os IH]; intros k; [reflexivity|]. cbn [sends2]. cbv zeta. rewrite A, pack_lines2_peq.
    destruct (pack_lines2 _ _ _ _ _ _ _ _) as [[x y] z]. now rewrite !IH.
  Qed.
  Lemma any_peq q n : any_from node b q n = any_from node c q n.
  Proof. unfold any_from. now rewrite B. Qed.
  Lemma any_size_peq q : any_size size_of node b q = any_size size_of node c q.
  Proof. unfold any_size. rewrite A. apply fold_left_ext2. intros a n. now rewrite any_peq, size_peq. Qed.
  Lemma any_start_peq q ns : forall j, any_start size_of node b q ns j = any_start size_of node c q ns j.
  Proof. induction ns as [|n ns IH]; intros j; [reflexivity|]. cbn [any_start]. now rewrite any_peq, size_peq, IH. Qed.
  Lemma last_any_peq q : last_any node b q = last_any node c q.
  Proof. unfold last_any. rewrite A. apply fold_left_ext2. intros a n. now rewrite any_peq. Qed.
  Lemma unpacks2_peq os : forall k, unpacks2 size_of N node b os k = unpacks2 size_of N node c os k.
  Proof.
    induction os as [|o os IH]; intros k; [reflexivity|]. cbn [unpacks2]. cbv zeta. rewrite any_size_peq, last_any_peq, any_start_peq, A, B.
    destruct (_ =? 0); now rewrite !IH.
  Qed.
  Lemma code2_peq first : post_code2 size_of N node b first ++ Waitall :: after_code2 size_of N node b =
                          post_code2 size_of N node c first ++ Waitall :: after_code2 size_of N node c.
  Proof.
    unfold post_code2, after_code2. cbv zeta. rewrite receives2_peq, unpacks2_peq, reduces_peq, copyreduces_peq.
    destruct (receives2 _ _ _ _ _ _) as [x y]. now rewrite sends2_peq.
  Qed.

  Context (mc : nat -> nat).
  Lemma copyin_lines_peq ns : forall add, copyin_lines N mc b ns add = copyin_lines N mc c ns add.
  Proof. induction ns as [|n ns IH]; intros add; [reflexivity|]. cbn [copyin_lines]. cbv zeta. now rewrite !B, IH. Qed.
  Lemma copyin_reduce_peq : copyin_reduce N mc b = copyin_reduce N mc c.
  Proof. unfold copyin_reduce. now rewrite A, copyin_lines_peq. Qed.
  Lemma before_user_peq ns : forall add, before_user mc b ns add = before_user mc c ns add.
  Proof. induction ns as [|n ns IH]; intros add; [reflexivity|]. cbn [before_user]. now rewrite !B, IH. Qed.
  Lemma copyin_gather_peq io : copyin_gather mc b io = copyin_gather mc c io.
  Proof. unfold copyin_gather. now rewrite A, before_user_peq. Qed.
  Lemma copyout_lines_peq n ns : forall add, copyout_lines mc b n ns add = copyout_lines mc c n ns add.
  Proof. induction ns as [|k ns IH]; intros add; [reflexivity|]. cbn [copyout_lines]. cbv zeta. now rewrite !B, IH. Qed.
  Lemma copyout_all_peq n : copyout_all mc b n = copyout_all mc c n.
  Proof. unfold copyout_all. now rewrite A, copyout_lines_peq. Qed.
End Code.
Lemma codes_peq size_of N node bs cs : Forall2 peq bs cs -> forall first,
  blocks_code size_of N node bs first = blocks_code size_of N node cs first.
Proof. induction 1 as [|b c bs cs P F IH]; intros first; [reflexivity|]. cbn [blocks_code]. now rewrite (block_peq _ _ _ _ _ P), IH. Qed.
Lemma codes2_peq size_of N node bs cs : Forall2 peq bs cs -> forall first,
  blocks_code2 size_of N node bs first = blocks_code2 size_of N node cs first.
Proof. induction 1 as [|b c bs cs P F IH]; intros first; [reflexivity|]. cbn [blocks_code2]. now rewrite (code2_peq _ _ _ _ _ P), IH. Qed.
Lemma Forall2_tl {A} (R : A -> A -> Prop) l k : Forall2 R l k -> Forall2 R (tl l) (tl k).
Proof. intros []; [constructor|assumption]. Qed.
Lemma Forall2_hd {A} (R : A -> A -> Prop) l k d : R d d -> Forall2 R l k -> R (hd d l) (hd d k).
Proof. now intros H []. Qed.
Section Programs.
  Context (bs cs : list block) (F : Forall2 peq bs cs).
  Let E := peq_refl empty_block.
  Lemma allreduce_peq count N node : allreduce_program bs count N node = allreduce_program cs count N node.
  Proof.
    unfold allreduce_program, between. cbv zeta.
    now rewrite (codes_peq _ _ _ _ _ (Forall2_tl _ _ _ F)), (copyin_reduce_peq _ _ _ (Forall2_hd _ _ _ _ E F)), (copyout_all_peq _ _ (Forall2_last _ _ _ _ _ F E)).
  Qed.
  Lemma reduce_program_peq count N root node : reduce_program bs count N root node = reduce_program cs count N root node.
  Proof.
    unfold reduce_program, between2. cbv zeta.
    now rewrite (codes2_peq _ _ _ _ _ (Forall2_tl _ _ _ F)), (copyin_reduce_peq _ _ _ (Forall2_hd _ _ _ _ E F)), (copyout_all_peq _ _ (Forall2_last _ _ _ _ _ F E)).
  Qed.
  Lemma gather_program_peq mc N root node : gather_program bs mc N root node = gather_program cs mc N root node.
  Proof.
    unfold gather_program, between2. cbv zeta.
    now rewrite (codes2_peq _ _ _ _ _ (Forall2_tl _ _ _ F)), (copyin_gather_peq _ _ (Forall2_hd _ _ _ _ E F)), (copyout_all_peq _ _ (Forall2_last _ _ _ _ _ F E)).
  Qed.
  Lemma bcast_program_peq count N root node : bcast_program bs count N root node = bcast_program cs count N root node.
  Proof.
    unfold bcast_program, between2. cbv zeta.
    now rewrite (codes2_peq _ _ _ _ _ (Forall2_tl _ _ _ F)), (copyout_all_peq _ _ (Forall2_last _ _ _ _ _ F E)).
  Qed.
End Programs.

(* ---------- the adaption to a root ---------- *)
Section Root.
  Context (N root : nat) (b c : nat -> block) (H : forall q, peq (b q) (c q)).
  Let A q := proj1 (H q).
  Let B q := proj2 (H q).
  Lemma wanted_peq q j : wanted root b q j = wanted root c q j.
  Proof. unfold wanted. now rewrite B. Qed.
  Lemma mark_line_ext l j (u v : nat -> nat) : (forall n, u n = v n) -> forall n, mark_line l j u n = mark_line l j v n.
  Proof.
    intros E. unfold mark_line. rewrite (E j). destruct (v j =? 0); [exact E|]. revert u v E.
    induction (reducefrom l ++ copyreducefrom l) as [|r rs IH]; intros u v E; [exact E|]. cbn [fold_left]. apply IH. intros n. rewrite (E r).
    destruct (v r =? 0); [|apply E]. unfold upd. destruct (Nat.eq_dec _ _); [reflexivity|apply E].
  Qed.
  Lemma marked_peq u v q : (forall p j, u p j = v p j) -> forall n, marked b u q n = marked c v q n.
  Proof.
    intros E. unfold marked. rewrite A.
    assert (G : forall l x y, (forall n, x n = y n) -> forall n,
      fold_left (fun v j => mark_line (lines (b q) j) j v) l x n = fold_left (fun v j => mark_line (lines (c q) j) j v) l y n).
    { induction l as [|j l IH]; intros x y X; [exact X|]. cbn [fold_left]. apply IH. rewrite B. now apply mark_line_ext. }
    intros n. apply G. apply E.
  Qed.
  Lemma told_peq v q p : told b v q p = told c v q p.
  Proof. unfold told. rewrite A. apply flat_map_ext. intros j. now rewrite B. Qed.
  Lemma asked_peq q p : asked b q p = asked c q p.
  Proof. unfold asked. rewrite A. apply flat_map_ext. intros j. now rewrite B. Qed.
  Lemma answer_peq v p q j : answer b v p q j = answer c v p q j.
  Proof. unfold answer. now rewrite told_peq, asked_peq. Qed.
  Lemma sent_needed_peq v p j : sent_needed b v p j = sent_needed c v p j.
  Proof. unfold sent_needed. rewrite B. erewrite existsb_ext2; [reflexivity|]. intros e. cbn beta. now rewrite answer_peq. Qed.
  Lemma prune_block_peq mid v1 v2 q : peq (prune_block b mid v1 v2 q) (prune_block c mid v1 v2 q).
  Proof.
    split; [apply A|]. intros j. unfold prune_block, prune_line. cbn [lines]. cbv zeta. rewrite !B.
    assert (E : prune_sends b v1 q j = prune_sends c v1 q j).
    { unfold prune_sends. rewrite B. apply map_ext. intros e. now rewrite answer_peq. }
    now rewrite E.
  Qed.

  Lemma outputs_peq u v q j : u q j = v q j -> outputs b u q j = outputs c v q j.
  Proof. intros E. unfold outputs. now rewrite B, E. Qed.
  Lemma spoken_peq v p q : spoken b v p q = spoken c v p q.
  Proof. unfold spoken. rewrite A. apply flat_map_ext. intros j. now rewrite B. Qed.
  Lemma listening_peq q p : listening b q p = listening c q p.
  Proof. unfold listening. rewrite A. apply flat_map_ext. intros j. now rewrite B. Qed.
  Lemma heard_peq v q p j : heard b v q p j = heard c v q p j.
  Proof. unfold heard. now rewrite spoken_peq, listening_peq. Qed.
  Lemma informed_peq v q j : informed b v q j = informed c v q j.
  Proof. unfold informed. cbv zeta. rewrite B. apply fold_left_ext2. intros a e. now rewrite heard_peq. Qed.
  Lemma dropped_peq v q j : dropped b v q j = dropped c v q j.
  Proof. unfold dropped. now rewrite B. Qed.
  Lemma settled_peq v k q : settled (b q) v k = settled (c q) v k.
  Proof. unfold settled. apply fold_left_ext2. intros a j. now rewrite B. Qed.
  Lemma forward_block_peq v2 v3 q : peq (forward_block b v2 v3 q) (forward_block c v2 v3 q).
  Proof.
    split; [apply A|]. intros j. unfold forward_block, forward_line. cbn [lines]. cbv zeta. now rewrite !B, settled_peq.
  Qed.
  Lemma origin_peq q j : origin root b q j = origin root c q j.
  Proof. unfold origin. now rewrite B. Qed.
  Lemma opened_peq q : peq (opened root b q) (opened root c q).
  Proof. split; [apply A|]. intros j. unfold opened. cbn [lines]. cbv zeta. now rewrite !B. Qed.
End Root.
Section Adapted.
  Context (N root : nat) (alg alh : nat -> list block) (H : forall q, Forall2 peq (alg q) (alh q)).
  Lemma block_at_peq i q : peq (block_at alg i q) (block_at alh i q).
  Proof.
    unfold block_at. revert i. induction (H q) as [|x y l k P F IH]; intros i; [destruct i; apply peq_refl|].
    destruct i; [exact P|]. apply IH.
  Qed.
  Lemma tab_peq i f g : (forall q j, f q j = g q j) -> tab N alg i f = tab N alh i g.
  Proof.
    intros E. unfold tab, tabulate. apply map_ext. intros q. rewrite (proj1 (block_at_peq i q)). apply map_ext. intros j. apply E.
  Qed.
  Lemma levels_peq count k : levels N root alg count k = levels N root alh count k.
  Proof.
    induction k as [|k IH].
    - cbn [levels]. cbv zeta. assert (E : forall f, (forall q j, marked (block_at alg (count - 1)) f q j = marked (block_at alh (count - 1)) f q j)).
      { intros f q j. apply marked_peq; [apply block_at_peq|reflexivity]. }
      erewrite tab_peq; [reflexivity|]. intros q j. rewrite E. apply marked_peq; [intros p; apply peq_refl|].
      intros p i. apply wanted_peq, block_at_peq.
    - cbn [levels]. cbv zeta. rewrite IH.
      assert (E : tab N alg (count - 1 - S k) (marked (block_at alg (count - 1 - S k)) (carried (snd (levels N root alh count k)))) =
                  tab N alh (count - 1 - S k) (marked (block_at alh (count - 1 - S k)) (carried (snd (levels N root alh count k))))).
      { apply tab_peq. intros q j. apply marked_peq; [apply block_at_peq|reflexivity]. }
      rewrite E. f_equal. destruct (0 <? _); [|reflexivity]. apply tab_peq. intros q j. apply sent_needed_peq, block_at_peq.
  Qed.
  Lemma backward_peq count q : Forall2 peq (backward N root alg count q) (backward N root alh count q).
  Proof.
    unfold backward. induction (seq 0 count) as [|i l IH]; [constructor|]. cbn [map]. constructor; [|exact IH].
    rewrite levels_peq. destruct (levels _ _ _ _ _) as [v1 v2]. apply prune_block_peq, block_at_peq.
  Qed.
  Lemma from_block_peq i q : peq (from_block root alg i q) (from_block root alh i q).
  Proof. unfold from_block. destruct (i =? 0); [apply opened_peq|]; apply block_at_peq. Qed.
  Lemma marks_peq count i : marks N root alg count i = marks N root alh count i.
  Proof.
    assert (G : forall i x y, (forall q j, x q j = y q j) ->
      let f := fun al => fun u =>
        let b := from_block root al i in
        let v1 := tab N al i (outputs b u) in
        let v2 := if middle_block count i then tab N al i (informed b v1) else v1 in
        let v3 := tab N al i (dropped b v2) in
        let v4 := tab N al i (fun q => settled (b q) (at_ v3 q) (num_lines (b q))) in (v1, v2, v3, v4) in
      f alg x = f alh y).
    { intros k x y E f. subst f. cbv beta zeta. assert (P := from_block_peq k).
      assert (E1 : tab N alg k (outputs (from_block root alg k) x) = tab N alh k (outputs (from_block root alh k) y)).
      { apply tab_peq. intros q j. now apply outputs_peq. }
      rewrite E1. generalize (tab N alh k (outputs (from_block root alh k) y)). intros v1. clear E1.
      assert (E2 : (if middle_block count k then tab N alg k (informed (from_block root alg k) v1) else v1) =
                   (if middle_block count k then tab N alh k (informed (from_block root alh k) v1) else v1)).
      { destruct (middle_block count k); [|reflexivity]. apply tab_peq. intros q j. now apply informed_peq. }
      rewrite E2. match goal with |- context [dropped _ ?w] => generalize w end. intros v2. clear E2.
      assert (E3 : tab N alg k (dropped (from_block root alg k) v2) = tab N alh k (dropped (from_block root alh k) v2)).
      { apply tab_peq. intros q j. now apply dropped_peq. }
      rewrite E3. f_equal. apply tab_peq. intros q j. rewrite (proj1 (P q)). now rewrite (settled_peq _ _ P). }
    induction i as [|i IH].
    - exact (G 0 (origin root (block_at alg 0)) (origin root (block_at alh 0)) (fun q j => origin_peq root _ _ (block_at_peq 0) q j)).
    - change (marks N root alg count (S i)) with ((fun al u =>
        let b := from_block root al (S i) in
        let v1 := tab N al (S i) (outputs b u) in
        let v2 := if middle_block count (S i) then tab N al (S i) (informed b v1) else v1 in
        let v3 := tab N al (S i) (dropped b v2) in
        let v4 := tab N al (S i) (fun q => settled (b q) (at_ v3 q) (num_lines (b q))) in (v1, v2, v3, v4)) alg (carried (snd (marks N root alg count i)))).
      rewrite IH. exact (G (S i) _ _ (fun _ _ => eq_refl)).
  Qed.
  Lemma forward_peq count q : Forall2 peq (forward N root alg count q) (forward N root alh count q).
  Proof.
    unfold forward. induction (seq 0 count) as [|i l IH]; [constructor|]. cbn [map]. constructor; [|exact IH].
    rewrite marks_peq. destruct (marks _ _ _ _ _) as [[[v1 v2] v3] v4]. apply forward_block_peq, from_block_peq.
  Qed.
End Adapted.
(* schedules and adapted schedules in a list, for the evaluation of all nodes *)
Definition fz_all (N : nat) (alg : nat -> list block) : nat -> list block :=
  let t := map (fun q => map freeze (alg q)) (seq 0 N) in fun q => match nth_error t q with Some l => l | None => alg q end.
Lemma freeze_all l : Forall2 peq (map freeze l) l.
Proof. induction l as [|b l IH]; [constructor|]. cbn. constructor; [apply freeze_peq|exact IH]. Qed.
Lemma fz_all_peq N alg q : Forall2 peq (fz_all N alg q) (alg q).
Proof.
  assert (R : Forall2 peq (alg q) (alg q)) by (induction (alg q); constructor; [apply peq_refl|assumption]).
  unfold fz_all. destruct (nth_error _ q) as [l|] eqn:E; [|exact R].
  rewrite nth_error_map in E. destruct (nth_error (seq 0 N) q) as [x|] eqn:X; [|discriminate]. cbn in E. injection E as <-.
  assert (L : q < length (seq 0 N)) by (apply nth_error_Some; congruence). rewrite seq_length in L.
  rewrite (nth_error_nth' (seq 0 N) 0), seq_nth in X by (rewrite ?seq_length; exact L). injection X as <-. apply freeze_all.
Qed.
Lemma Forall2_peq_trans bs cs ds : Forall2 peq bs cs -> Forall2 peq cs ds -> Forall2 peq bs ds.
Proof.
  intros H. revert ds. induction H as [|b c bs cs P F IH]; intros ds G; [inversion G; constructor|].
  inversion G; subst. constructor; [eapply peq_trans; eassumption|]. now apply IH.
Qed.
