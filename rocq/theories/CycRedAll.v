(* The cyclic allreduce: the spreading part behind the reducing part. *)
From Verif Require Import Base SchedModel SchedSpec SchedProofs MatchProofs CombineProofs CyclicSpec CyclicProofs CycRedModel ShiftProofs LooseSpec LooseChain LooseAlike
  CycRedDown CycRedScatter CycRedClosure CycRedPlace CycRedSpread CycRedUp.
Local Ltac Zify.zify_post_hook ::= idtac.

(* the ports fit: only the last step is cut *)
Fixpoint fits (N g : nat) (ports : list nat) : Prop :=
  match ports with
  | [] => N <= g
  | p :: r => 0 < p /\ g * p < N /\ (r <> [] -> g * (p + 1) <= N) /\ fits N (g * (p + 1)) r
  end.
Lemma fits_minimal N p : 0 < p -> forall r g, 0 < g -> Forall (fun p => 0 < p) r ->
  g * spread r * p < N -> N <= g * spread (r ++ [p]) -> fits N g (r ++ [p]).
Proof.
  intros Hp. induction r as [|a r IH]; intros g Hg Hr Hl Hu.
  - cbn in *. repeat split; auto; try lia. congruence.
  - inversion Hr as [|? ? Ha Hr']; subst. cbn [app fits]. cbn [spread fold_right] in Hl, Hu. cbn [app fold_right] in Hu. fold (spread r) in Hl. fold (spread (r ++ [p])) in Hu.
    pose proof (spread_pos r) as Hs.
    assert (B : g * (a + 1) <= g * ((a + 1) * spread r) * p).
    { replace (g * ((a + 1) * spread r) * p) with (g * (a + 1) * (spread r * p)) by lia.
      assert (1 <= spread r * p) by (apply (Nat.mul_le_mono 1 (spread r) 1 p); lia).
      rewrite <- (Nat.mul_1_r (g * (a + 1))) at 1. now apply Nat.mul_le_mono_l. }
    assert (C : g * a <= g * (a + 1)) by (apply Nat.mul_le_mono_l; lia).
    split; [auto|]. split; [lia|]. split; [intros _; lia|]. apply IH; auto.
    + apply Nat.mul_pos_pos; lia.
    + replace (g * (a + 1) * spread r * p) with (g * ((a + 1) * spread r) * p) by lia. exact Hl.
    + rewrite <- Nat.mul_assoc. exact Hu.
Qed.
Lemma minimal_fits N up : up <> [] -> minimal N up -> fits N 1 up.
Proof.
  intros Ne (Pos & [[E _]|(r & p & -> & A & B)]); [congruence|]. apply Forall_app in Pos. destruct Pos as [Pr Pp]. inversion Pp; subst.
  apply fits_minimal; auto; lia.
Qed.

Definition cap (N g p : nat) : nat := if N <? g * (p + 1) then N else g * (p + 1).
Lemma cap_ok N g p r : fits N g (p :: r) -> 0 < g -> g * p < cap N g p /\ cap N g p <= N /\ cap N g p <= g * (p + 1) /\
  (r <> [] -> cap N g p = g * (p + 1)) /\ (r = [] -> cap N g p = N).
Proof.
  intros (Hp & Hl & Hr & F) Hg. unfold cap. assert (g * p < g * (p + 1)) by (apply Nat.mul_lt_mono_pos_l; lia).
  destruct (Nat.ltb_spec N (g * (p + 1))) as [L|L].
  - repeat split; auto; try lia.
  - repeat split; auto. intros ->. cbn in F. lia.
Qed.
Fixpoint up_fam (N s g : nat) (ports : list nat) (prev : nat -> block) : list (nat -> block) :=
  match ports with
  | [] => []
  | p :: r =>
    let x := fun q => cr_spread N (s * g) (s * cap N g p) g p q (prev q) in
    let y := fun q => cr_collect (x q) in
    x :: y :: up_fam N s (g * (p + 1)) r y
  end.
Lemma up_at N s ports : forall g prev q, cr_up N s g ports q (prev q) = at_node q (up_fam N s g ports prev).
Proof.
  induction ports as [|p r IH]; intros g prev q; [reflexivity|]. cbn [cr_up up_fam at_node map]. f_equal. f_equal.
  exact (IH (g * (p + 1)) (fun q => cr_collect (cr_spread N (s * g) (s * cap N g p) g p q (prev q))) q).
Qed.

Section Up.
  Context (N s : nat) (Hs : 0 < s).
  (* one step off: all conditions on the rest *)
  Lemma rest g p r : fits N g (p :: r) -> 0 < g -> r <> [] -> s * cap N g p = s * (g * (p + 1)).
  Proof. intros F Hg Hr. f_equal. now apply (cap_ok N g p r F Hg). Qed.
  Lemma up_like ports : forall g prev q, 0 < g -> fits N g ports -> by_cls N s (s * g) prev -> q < N ->
    Forall2 like (at_node q (up_fam N s g ports prev)) (at_node 0 (up_fam N s g ports prev)).
  Proof.
    induction ports as [|p r IH]; intros g prev q Hg F H Hq; [constructor|].
    destruct (cap_ok N g p r F Hg) as (A & B & C & D & _).
    destruct (spread_like N s g p (cap N g p) _ _ Hs Hg A B C eq_refl eq_refl prev H q Hq) as [L1 L2].
    cbn [up_fam at_node map]. constructor; [exact L1|]. constructor; [exact L2|].
    destruct r as [|p' r]; [constructor|]. destruct F as (_ & _ & _ & F). apply IH; auto; [apply Nat.mul_pos_pos; lia|].
    rewrite <- D by congruence. now apply (collect_frac N s g p (cap N g p) _ _ Hs Hg A B C eq_refl eq_refl).
  Qed.
  Lemma up_lower ports : forall g prev q b n m, q < N -> 0 < g -> fits N g ports -> by_cls N s (s * g) prev ->
    In b (at_node q (up_fam N s g ports prev)) -> n < num_lines b -> In m (marks b n) -> m < n.
  Proof.
    induction ports as [|p r IH]; intros g prev q b n m HN Hg F H I Hn Hm; [destruct I|].
    destruct (cap_ok N g p r F Hg) as (A & B & C & D & _).
    assert (L := marks_lower N s g p (cap N g p) _ _ Hs Hg A B C eq_refl eq_refl prev H q n m HN).
    cbn [up_fam at_node map] in I. destruct I as [<-|[<-|I]].
    - apply L; auto.
    - apply L; auto.
    - destruct r as [|p' r]; [destruct I|]. destruct F as (_ & _ & _ & F). eapply IH in I; eauto; [apply Nat.mul_pos_pos; lia|].
      rewrite <- D by congruence. now apply (collect_frac N s g p (cap N g p) _ _ Hs Hg A B C eq_refl eq_refl).
  Qed.
  Lemma up_bound ports : forall g prev q b n e, 0 < g -> fits N g ports ->
    In b (at_node q (up_fam N s g ports prev)) -> n < num_lines b -> n < s * N /\ (In e (sendto (lines b n)) -> snd e < s * N).
  Proof.
    induction ports as [|p r IH]; intros g prev q b n e Hg F I Hn; [destruct I|].
    destruct (cap_ok N g p r F Hg) as (A & B & C & D & _).
    assert (Hw : s * cap N g p <= s * N) by now apply Nat.mul_le_mono_l.
    cbn [up_fam at_node map] in I. destruct I as [<-|[<-|I]].
    - cbn [cr_spread num_lines] in Hn. split; [lia|]. intros I. destruct (Nat.lt_ge_cases n (s * g)) as [L|L].
      + destruct (send_count N s g p (cap N g p) _ _ Hs Hg A B C eq_refl eq_refl prev n L) as (K & HK & Y & Z). rewrite (Z q) in I.
        apply in_map_iff in I. destruct I as (i & <- & I). apply in_seq in I. cbn [snd]. rewrite (Nat.mul_comm (s * g)).
        apply Nat.lt_le_trans with (s * cap N g p); auto. apply Y; lia.
      + cbn [cr_spread lines] in I. replace (n <? s * g) with false in I by (symmetry; now apply Nat.ltb_ge). destruct I.
    - cbn [cr_collect cr_spread num_lines] in Hn. split; [lia|]. intros [].
    - destruct F as (_ & _ & _ & F). eapply IH in I; eauto. apply Nat.mul_pos_pos; lia.
  Qed.
  Lemma up_last ports : forall g prev, 0 < g -> ports <> [] -> fits N g ports -> by_cls N s (s * g) prev ->
    by_cls N s (s * N) (last (up_fam N s g ports prev) prev) /\ forall q, num_lines (last (up_fam N s g ports prev) prev q) = s * N.
  Proof.
    induction ports as [|p r IH]; intros g prev Hg Ne F H; [congruence|].
    destruct (cap_ok N g p r F Hg) as (A & B & C & D & E). cbn [up_fam]. rewrite !last_cons.
    assert (G := collect_frac N s g p (cap N g p) _ _ Hs Hg A B C eq_refl eq_refl prev H).
    destruct r as [|p' r].
    - cbn [up_fam last]. rewrite E in * by auto. split; [exact G|]. reflexivity.
    - destruct F as (_ & _ & _ & F). apply IH; auto; [apply Nat.mul_pos_pos; lia|congruence|]. rewrite <- D by congruence. exact G.
  Qed.

  (* closed sets of lines *)
  Definition closed (u : nat -> bool) (bs : list (nat -> block)) : Prop :=
    forall b n m, In b (at_node 0 bs) -> n < num_lines b -> u n = true -> In m (marks b n) -> u m = true.
  Lemma closed_step u g p r prev : 0 < N -> 0 < g -> fits N g (p :: r) -> by_cls N s (s * g) prev -> closed u (up_fam N s g (p :: r) prev) ->
    (forall n, s * g <= n < s * cap N g p -> u n = true -> u ((n - s * g) mod (s * g)) = true) /\
    (forall n j, s * g <= n < s * cap N g p -> u n = true -> src N s (s * g) n = Some j -> u j = true).
  Proof.
    intros HN Hg F H K. destruct (cap_ok N g p r F Hg) as (A & B & C & D & E). split.
    - intros n Hn Hu. eapply K; [now left| |exact Hu|]; cbv beta; [apply Hn|]. 
      rewrite (spread_marks N g p (s * g) (s * cap N g p) prev 0 n) by lia.
      replace (n <? s * g) with false by (symmetry; apply Nat.ltb_ge; lia). now left.
    - intros n j Hn Hu Es. eapply K; [right; now left| |exact Hu|]; cbv beta; [apply Hn|].
      rewrite (collect_marks N s g p (cap N g p) _ _ Hs Hg A B C eq_refl eq_refl prev H 0 n) by lia.
      replace (n <? s * g) with false by (symmetry; apply Nat.ltb_ge; lia). rewrite Es. now left.
  Qed.
  Lemma closed_rest u g p r prev : closed u (up_fam N s g (p :: r) prev) ->
    closed u (up_fam N s (g * (p + 1)) r (fun q => cr_collect (cr_spread N (s * g) (s * cap N g p) g p q (prev q)))).
  Proof. intros K b n m I. apply K. right. now right. Qed.
  (* where a line gets its reduction from *)
  Lemma closed_src u ports : forall g prev n, 0 < N -> 0 < g -> fits N g ports -> by_cls N s (s * g) prev -> closed u (up_fam N s g ports prev) ->
    s * g <= n < s * N -> u n = true -> exists s0, s * g <= s0 <= n /\ forall j, src N s s0 n = Some j -> u j = true.
  Proof.
    induction ports as [|p r IH]; intros g prev n HN Hg F H K Hn Hu.
    - cbn in F. assert (s * N <= s * g) by (apply Nat.mul_le_mono_l; auto). lia.
    - destruct (cap_ok N g p r F Hg) as (A & B & C & D & E). destruct (closed_step u g p r prev HN Hg F H K) as [_ U2].
      destruct (Nat.lt_ge_cases n (s * cap N g p)) as [L|L].
      + exists (s * g). split; [lia|]. intros j. apply U2; auto. lia.
      + destruct r as [|p' r]; [rewrite E in L by auto; lia|]. rewrite D in * by congruence. destruct F as (_ & _ & _ & F).
        assert (K' := closed_rest u g p (p' :: r) prev K). rewrite D in K' by congruence.
        destruct (IH (g * (p + 1)) _ n HN ltac:(apply Nat.mul_pos_pos; lia) F
          (collect_frac N s g p (g * (p + 1)) _ _ Hs Hg A B C eq_refl eq_refl prev H) K') as (s0 & P & Q); auto; [lia|].
        exists s0. split; auto. assert (s * g <= s * (g * (p + 1))) by (apply Nat.mul_le_mono_l; nia). lia.
  Qed.

  Context (u : nat -> bool) (U0 : u 0 = true).
  Local Notation place := (cr_place u).
  Definition kept_fam (bs : list (nat -> block)) : list (nat -> block) := map (fun b q => cr_keep u false (b q)) bs.
  Lemma up_matched ports : forall g prev, 0 < N -> 0 < g -> fits N g ports -> by_cls N s (s * g) prev -> closed u (up_fam N s g ports prev) ->
    Forall (well_matched N) (kept_fam (up_fam N s g ports prev)).
  Proof.
    induction ports as [|p r IH]; intros g prev HN Hg F H K; [constructor|].
    destruct (cap_ok N g p r F Hg) as (A & B & C & D & E). destruct (closed_step u g p r prev HN Hg F H K) as [U1 U2].
    cbn [up_fam kept_fam map]. constructor; [|constructor].
    - exact (keep_matched N s g p (cap N g p) _ _ Hs Hg A B C eq_refl eq_refl prev H u U0 U1 U2).
    - exact (collect_matched N s g p (cap N g p) _ _ Hs Hg A B C eq_refl eq_refl prev H u U1 U2).
    - destruct r as [|p' r]; [constructor|]. destruct F as (_ & _ & _ & F). apply IH; auto.
      + apply Nat.mul_pos_pos; lia.
      + rewrite <- D by congruence. exact (collect_frac N s g p (cap N g p) _ _ Hs Hg A B C eq_refl eq_refl prev H).
      + exact (closed_rest u g p (p' :: r) prev K).
  Qed.

  (* the layout of the lines that are left *)
  Definition laid (k : nat) (b : nat -> block) : Prop :=
    forall q n, q < N -> n < k -> u n = true -> frac (lines (b q) (place n)) = (q + cls N s n) mod N.
  Lemma laid_same k b b' q n : laid k b -> laid k b' -> q < N -> n < k -> u n = true -> same_to (b q) (b' q) (place n).
  Proof.
    clear Hs U0. intros L L' Hq Hn Hu r Hr. assert (Hk : r < place k) by (apply Nat.le_lt_trans with (place n); auto; now apply place_lt).
    destruct (nth_us u k r Hk) as (A & B & C). rewrite <- C. now rewrite L, L'.
  Qed.
  Lemma laid_less k k' b : k <= k' -> laid k' b -> laid k b.
  Proof. clear Hs U0. intros E L q n Hq Hn. apply L; auto. lia. Qed.
  Lemma laid_keep k last b : (forall q, num_lines (b q) = k) -> by_cls N s k b -> laid k (fun q => cr_keep u last (b q)).
  Proof. clear Hs U0. intros E H q n Hq Hn Hu. now apply (keep_cls N s k u b last). Qed.
End Up.

Section Values.
  Context {V : Type} (op : V -> V -> V) (Oa : forall a b c, op a (op b c) = op (op a b) c) (Oc : forall a b, op a b = op b a).
  Context (N : nat) (X : nat -> nat -> V) (s : nat) (R : nat -> nat) (Hs : 0 < s) (HsN : s <= N) (HR : forall L, L < N -> R L < s).
  Context (u : nat -> bool) (U0 : u 0 = true).
  Lemma up_all ports : forall g prev kprev a c, 0 < g -> ports <> [] -> fits N g ports -> by_cls N s (s * g) prev ->
    closed u (up_fam N s g ports prev) -> laid N s u (s * g) kprev -> filled op N X s R u (s * g) a ->
    chain op N kprev (kept_fam u (up_fam N s g ports prev)) a c ->
    filled op N X s R u (s * N) c /\ laid N s u (s * N) (last (kept_fam u (up_fam N s g ports prev)) kprev).
  Proof.
    induction ports as [|p r IH]; intros g prev kprev a c Hg Ne F H K L Fa Ch; [congruence|].
    assert (HN : 0 < N) by lia.
    destruct (cap_ok N g p r F Hg) as (A & B & C & D & E). destruct (closed_step N s Hs u g p r prev HN Hg F H K) as [U1 U2].
    cbn [up_fam kept_fam map] in Ch |- *. rewrite !last_cons.
    match type of Ch with chain _ _ _ (?x :: ?y :: ?l) _ _ => change (x :: y :: l) with ([x; y] ++ l) in Ch end.
    apply chain_app in Ch. destruct Ch as (m & C1 & C2). cbn [last] in C2.
    assert (Fx := spread_frac N s g p (cap N g p) _ _ Hs Hg A B C eq_refl eq_refl prev H).
    assert (Fy := collect_frac N s g p (cap N g p) _ _ Hs Hg A B C eq_refl eq_refl prev H).
    assert (Less : s * g <= s * cap N g p) by (apply Nat.mul_le_mono_l; destruct F as (Hp & _); assert (g * 1 <= g * p) by (apply Nat.mul_le_mono_l; auto); lia).
    assert (Lx : laid N s u (s * cap N g p) (fun q => cr_keep u false (cr_spread N (s * g) (s * cap N g p) g p q (prev q)))) by now apply laid_keep.
    assert (Ly : laid N s u (s * cap N g p) (fun q => cr_keep u false (cr_collect (cr_spread N (s * g) (s * cap N g p) g p q (prev q))))).
    { apply (laid_keep N s u (s * cap N g p) false (fun q => cr_collect (cr_spread N (s * g) (s * cap N g p) g p q (prev q)))); auto. }
    assert (Fm := up_step op Oa Oc N X s R Hs HsN HR g p (cap N g p) _ _ Hg A B C eq_refl eq_refl prev H u U0 U1 U2 kprev).
    specialize (Fm (fun q n Hq Hn Hu => laid_same N s u (s * g) _ _ q n L (laid_less N s u _ _ _ Less Lx) Hq Hn Hu) a m Fa C1).
    destruct r as [|p' r].
    - cbn [up_fam kept_fam map] in C2 |- *. rewrite E in * by auto. split; [|exact Ly]. intros q n Hq Hn Hu. rewrite C2 by auto. now apply Fm.
    - destruct F as (_ & _ & _ & F). apply (IH (g * (p + 1)) _ _ m c); auto; try congruence.
      + apply Nat.mul_pos_pos; lia.
      + rewrite <- D by congruence. exact Fy.
      + exact (closed_rest N s u g p (p' :: r) prev K).
      + rewrite <- D by congruence. exact Ly.
      + rewrite <- D by congruence. exact Fm.
  Qed.
End Values.
