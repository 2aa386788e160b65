From Verif Require Import Base ParCopyModel ParCopySpec.
Local Ltac Zify.zify_post_hook ::= idtac.
Local Open Scope Z_scope.

(* ----- the size of the group, as seen by no core in particular ----- *)
Inductive ss := Fresh | Clean (o g : Z) | Taint (o : Z).
Definition group (s : ss) (c : copy) (r : list ln) : Z :=
  match s with
  | Clean o g => if o =? cp_off1 c then g else look (cp_off1 c) (cp_off1 c) 0 (Cpy c :: r)
  | _ => look (cp_off1 c) (cp_off1 c) 0 (Cpy c :: r)
  end.
Definition after_oth (s : ss) : ss := match s with Clean o _ => Taint o | _ => s end.
Fixpoint plan (s : ss) (ls : list ln) : list Z :=
  match ls with
  | [] => []
  | Bar :: r => 0 :: plan Fresh r
  | Oth :: r => 0 :: plan (after_oth s) r
  | Cpy c :: r => group s c r :: plan (Clean (cp_off1 c) (group s c r)) r
  end.
Fixpoint unb (s : ss) (ls : list ln) : Prop :=
  match ls with
  | [] => True
  | Bar :: r => unb Fresh r
  | Oth :: r => unb (after_oth s) r
  | Cpy c :: r => match s with Taint o => cp_off1 c <> o | _ => True end /\ unb (Clean (cp_off1 c) (group s c r)) r
  end.
Definition fresh (x : st) (ls : list ln) : Prop := old_off x = cur x /\ old_size x = look (old_off x) (cur x) 0 ls.
Definition Inv (s : ss) (x : st) (ls : list ln) : Prop :=
  match s with
  | Fresh => fresh x ls
  | Clean o g => old_off x = o /\ old_size x = g
  | Taint o => (old_off x = o /\ cur x = o) \/ fresh x ls
  end.
Definition Above (s : ss) (ls : list ln) : Prop := match s with Clean o g => look o o 0 ls <= g | _ => True end.

Lemma look_ge ls : forall o d m, m <= look o d m ls.
Proof.
  induction ls as [|[c| |] r IH]; intros o d m; cbn [look]; try lia.
  - destruct (o =? cp_off1 c); [|lia].
    specialize (IH o (cp_off1 c) (if cp_split c && (m <? cp_size c) then cp_size c else m)).
    destruct (cp_split c); cbn [andb] in *; [|lia]. destruct (Z.ltb_spec m (cp_size c)); lia.
  - destruct (o =? d); [apply IH|lia].
Qed.
Lemma look_mono ls : forall o d m m', m <= m' -> look o d m ls <= look o d m' ls.
Proof.
  induction ls as [|[c| |] r IH]; intros o d m m' H; cbn [look]; try lia.
  - destruct (o =? cp_off1 c); [|lia]. apply IH. destruct (cp_split c); cbn [andb]; [|lia].
    destruct (Z.ltb_spec m (cp_size c)), (Z.ltb_spec m' (cp_size c)); lia.
  - destruct (o =? d); [apply IH; assumption|lia].
Qed.
Lemma look_first c r : cp_split c = true -> cp_size c <= look (cp_off1 c) (cp_off1 c) 0 (Cpy c :: r).
Proof.
  intros S. cbn [look]. rewrite Z.eqb_refl, S. cbn [andb]. etransitivity; [|apply look_ge].
  destruct (Z.ltb_spec 0 (cp_size c)); lia.
Qed.
Lemma look_rest c r : look (cp_off1 c) (cp_off1 c) 0 r <= look (cp_off1 c) (cp_off1 c) 0 (Cpy c :: r).
Proof.
  cbn [look]. rewrite Z.eqb_refl. apply look_mono. destruct (cp_split c); cbn [andb]; [|lia].
  destruct (Z.ltb_spec 0 (cp_size c)); lia.
Qed.

Lemma group_above s c r : Above s (Cpy c :: r) ->
  (cp_split c = true -> cp_size c <= group s c r) /\ Above (Clean (cp_off1 c) (group s c r)) r.
Proof.
  intros A. cbn [Above].
  assert (F := look_first c r). assert (R := look_rest c r).
  destruct s as [|o g|o]; cbn [group] in *; try (split; [assumption|lia]).
  destruct (Z.eqb_spec o (cp_off1 c)) as [->|N]; [|split; [assumption|lia]].
  cbn [Above] in A. split; [intros S; specialize (F S); lia|lia].
Qed.

Section Core.
  Context (ns ts rank : Z).
  Definition emit (l : ln) (g : Z) : list ln :=
    match l with
    | Cpy c =>
      if cp_split c then
        let '(add, i) := part ns ts rank g (cp_size c) in
        if i * ts =? 0 then [] else [Cpy (Copy true (cp_off1 c + add * ts) (cp_off2 c + add * ts) (i * ts))]
      else [l]
    | _ => [l]
    end.

  Lemma fresh_step x c r : (fresh x (Cpy c :: r) \/ (old_off x <> cp_off1 c)) ->
    old_off (regroup x (Cpy c) r) = cp_off1 c /\
    old_size (regroup x (Cpy c) r) = look (cp_off1 c) (cp_off1 c) 0 (Cpy c :: r) /\
    cur (regroup x (Cpy c) r) = cp_off1 c.
  Proof.
    intros F. unfold regroup. cbn [read].
    destruct (Z.eqb_spec (old_off x) (cp_off1 c)) as [E|N]; cbn [old_off old_size cur]; [|repeat split].
    destruct F as [[F1 F2]|F]; [|congruence]. rewrite F2, E. repeat split; try congruence.
  Qed.

  Lemma exec_plan ls : forall s x, Inv s x ls -> unb s ls -> Above s ls ->
    forall k l, nth_error ls k = Some l ->
    exists g, nth_error (plan s ls) k = Some g /\ nth_error (exec ns ts rank x ls) k = Some (emit l g) /\
    (forall c, l = Cpy c -> cp_split c = true -> cp_size c <= g).
  Proof.
    induction ls as [|l0 r IH]; intros s x I U A k l Hk; [destruct k; discriminate|].
    cbn [exec]. destruct (step ns ts rank x l0 r) as [x' o] eqn:St.
    destruct l0 as [c| |].
    - destruct U as [U1 U2]. destruct (group_above s c r A) as [A1 A2].
      assert (E : old_off (regroup x (Cpy c) r) = cp_off1 c /\ old_size (regroup x (Cpy c) r) = group s c r).
      { destruct s as [|o0 g0|o0]; cbn [Inv group] in *.
        - destruct (fresh_step x c r (or_introl I)) as (E1 & E2 & _). auto.
        - destruct I as [I1 I2]. destruct (Z.eqb_spec o0 (cp_off1 c)) as [E|N].
          + subst. unfold regroup. cbn [read]. rewrite E, Z.eqb_refl. auto.
          + destruct (fresh_step x c r ltac:(right; congruence)) as (E1 & E2 & _). auto.
        - destruct (fresh_step x c r) as (E1 & E2 & _); [|auto].
          destruct I as [[I1 I2]|I]; [right; congruence|left; assumption]. }
      destruct E as [E1 E2].
      assert (Hx : old_off x' = cp_off1 c /\ old_size x' = group s c r /\ o = emit (Cpy c) (group s c r)).
      { unfold step in St. set (y := regroup x (Cpy c) r) in *. clearbody y. unfold emit.
        destruct (cp_split c).
        - rewrite E2 in St. destruct (part ns ts rank (group s c r) (cp_size c)) as [add i].
          inversion St; subst; cbn [old_off old_size]. auto.
        - inversion St; subst. auto. }
      destruct Hx as (X1 & X2 & ->). destruct k as [|k]; cbn [nth_error plan] in *.
      + inversion Hk; subst. eexists. split; [reflexivity|]. split; [reflexivity|].
        intros c' [= <-]. exact A1.
      + apply IH; try assumption. split; assumption.
    - unfold step in St. inversion St; subst; clear St. destruct k as [|k]; cbn [nth_error plan] in *.
      + inversion Hk; subst. eexists. split; [reflexivity|]. split; [reflexivity|discriminate].
      + apply IH; try assumption; cbn [Above]; auto. cbn [Inv]. split; reflexivity.
    - unfold step in St. inversion St; subst; clear St. destruct k as [|k]; cbn [nth_error plan] in *.
      + inversion Hk; subst. eexists. split; [reflexivity|]. split; [reflexivity|discriminate].
      + apply IH; try assumption; [|destruct s; exact Logic.I].
        assert (F : forall x, fresh x (Oth :: r) -> fresh (regroup x Oth r) r).
        { intros y [F1 F2]. unfold regroup. cbn [read]. rewrite F1, Z.eqb_refl. split; cbn [old_off old_size cur]; [reflexivity|].
          rewrite F2. cbn [look]. rewrite F1, Z.eqb_refl. reflexivity. }
        assert (G : forall x, old_off x <> cur x -> fresh (regroup x Oth r) r).
        { intros y N. unfold regroup. cbn [read]. destruct (Z.eqb_spec (old_off y) (cur y)); [congruence|].
          split; cbn [old_off old_size cur]; [reflexivity|]. cbn [look]. rewrite Z.eqb_refl. reflexivity. }
        destruct s as [|o0 g0|o0]; cbn [Inv after_oth] in *.
        * apply F; assumption.
        * destruct (Z.eq_dec (old_off x) (cur x)) as [E|N]; [left|right; apply G; assumption].
          unfold regroup. cbn [read]. rewrite E, Z.eqb_refl. cbn [old_off cur]. destruct I. split; congruence.
        * destruct I as [[I1 I2]|I]; [left|right; apply F; assumption].
          unfold regroup. cbn [read]. rewrite I1, I2, Z.eqb_refl. cbn [old_off cur]. auto.
  Qed.
End Core.

Lemma plan_same ls : forall s j c c', nth_error ls j = Some (Cpy c) -> nth_error ls (S j) = Some (Cpy c') ->
  cp_off1 c = cp_off1 c' -> nth_error (plan s ls) j = nth_error (plan s ls) (S j).
Proof.
  induction ls as [|l r IH]; intros s j c c' H1 H2 E; [destruct j; discriminate|].
  destruct j as [|j].
  - cbn in H1. inversion H1; subst l. destruct r as [|l' r]; [discriminate|]. cbn in H2. inversion H2; subst l'.
    cbn [plan nth_error]. f_equal. cbn [group]. rewrite E, Z.eqb_refl. reflexivity.
  - cbn [nth_error] in H1. change (nth_error (l :: r) (S (S j))) with (nth_error r (S j)) in H2.
    destruct l as [c0| |]; cbn [plan];
      change (nth_error r j) with (nth_error r j); apply (IH _ j c c' H1 H2 E).
Qed.
Lemma plan_run ls s j k : same_run ls j k -> (j <= k)%nat -> nth_error (plan s ls) j = nth_error (plan s ls) k.
Proof.
  intros [o H] L. induction L as [|k L IH]; [reflexivity|].
  rewrite IH by (intros i Hi; apply H; lia).
  destruct (H k ltac:(lia)) as (c & C1 & C2). destruct (H (S k) ltac:(lia)) as (c' & C1' & C2').
  apply (plan_same ls s k c c'); congruence.
Qed.

Definition follows (o : Z) (lo : nat) (ls : list ln) : Prop :=
  forall k c, (lo <= k)%nat -> nth_error ls k = Some (Cpy c) -> (forall i, (i < k)%nat -> nth_error ls i = Some Oth) ->
  cp_off1 c <> o.
Lemma unbroken_tail l r : unbroken (l :: r) -> unbroken r.
Proof.
  intros H j k c c' L H1 H2 E B. assert (X := H (S j) (S k) c c' ltac:(lia) H1 H2 E).
  assert (S k = S (S j)); [|lia]. apply X. intros i Hi. destruct i as [|i]; [lia|]. apply (B i). lia.
Qed.
Lemma unbroken_unb ls : forall s, unbroken ls ->
  match s with Taint o => follows o 0 ls | Clean o _ => follows o 1 ls | Fresh => True end -> unb s ls.
Proof.
  induction ls as [|l r IH]; intros s U F; [exact Logic.I|].
  assert (U' := unbroken_tail _ _ U).
  destruct l as [c| |]; cbn [unb].
  - split.
    + destruct s as [| |o]; auto. apply (F 0%nat c); [lia|reflexivity|lia].
    + apply IH; [assumption|]. intros k c' Lk Hk B E.
      assert (X := U 0%nat (S k) c c' ltac:(lia) eq_refl Hk (eq_sym E)).
      assert (S k = 1%nat); [|lia]. apply X. intros i Hi. destruct i as [|i]; [lia|]. apply (B i). lia.
  - apply IH; [assumption|exact Logic.I].
  - apply IH; [assumption|]. assert (G : forall o lo, (lo <= 1)%nat -> follows o lo (Oth :: r) -> follows o 0 r).
    { intros o lo Hlo Fo k c _ Hk B. apply (Fo (S k) c); [lia|assumption|]. intros [|i] Hi; [reflexivity|]. apply B. lia. }
    destruct s as [|o g|o]; cbn [after_oth]; [exact Logic.I|apply (G o 1%nat); auto|apply (G o 0%nat); auto].
Qed.

Lemma parallel_plan ns ts rank ls k l : unbroken ls -> (forall c, In (Cpy c) ls -> 0 <= cp_off1 c) ->
  nth_error ls k = Some l ->
  exists g, nth_error (plan (Taint (-1)) ls) k = Some g /\ nth_error (parallel ns ts rank ls) k = Some (emit ns ts rank l g) /\
  (forall c, l = Cpy c -> cp_split c = true -> cp_size c <= g).
Proof.
  intros U P Hk. unfold parallel. apply exec_plan; [left; split; reflexivity| |exact Logic.I|assumption].
  apply unbroken_unb; [assumption|]. intros k' c _ H _ E. apply nth_error_In in H. specialize (P c H). lia.
Qed.

(* ----- arithmetic of the parts ----- *)
Section Parts.
  Context (ns n : Z) (Hns : 0 < ns) (Hn : 0 <= n).
  Definition start (r : Z) : Z := n / ns * r + Z.min r (n mod ns).
  Lemma start_step r : start (r + 1) = start r + (if r <? n mod ns then n / ns + 1 else n / ns).
  Proof. unfold start. destruct (Z.ltb_spec r (n mod ns)); lia. Qed.
  Lemma start_0 : start 0 = 0.
  Proof. unfold start. assert (X := Z.mod_pos_bound n ns Hns). lia. Qed.
  Lemma start_ns : start ns = n.
  Proof. unfold start. assert (X := Z.mod_pos_bound n ns Hns). assert (Y := Z.div_mod n ns ltac:(lia)). lia. Qed.
  Lemma start_mono a b : a <= b -> start a <= start b.
  Proof.
    intros L. unfold start. assert (Q := Z.div_pos n ns Hn Hns). assert (n / ns * a <= n / ns * b) by (apply Z.mul_le_mono_nonneg_l; assumption). lia.
  Qed.
  Lemma start_find e : 0 <= e < n -> exists r, 0 <= r < ns /\ start r <= e < start (r + 1).
  Proof.
    intros He. assert (A : forall m : nat, start (Z.of_nat m) <= e \/ exists r, 0 <= r < Z.of_nat m /\ start r <= e < start (r + 1)).
    { induction m as [|m IH]; [left; cbn; rewrite start_0; lia|].
      destruct IH as [IH|(r & R1 & R2)]; [|right; exists r; split; [lia|assumption]].
      destruct (Z_le_gt_dec (start (Z.of_nat (S m))) e); [left; assumption|].
      right. exists (Z.of_nat m). split; [lia|]. replace (Z.of_nat m + 1) with (Z.of_nat (S m)) by lia. lia. }
    destruct (A (Z.to_nat ns)) as [B|(r & R1 & R2)].
    - rewrite Z2Nat.id in B by lia. rewrite start_ns in B. lia.
    - exists r. split; [lia|assumption].
  Qed.
  Lemma start_unique e r r' : start r <= e < start (r + 1) -> start r' <= e < start (r' + 1) -> r = r'.
  Proof.
    intros H H'. destruct (Z_lt_le_dec r r') as [L|L].
    - assert (M := start_mono (r + 1) r' ltac:(lia)). lia.
    - destruct (Z_lt_le_dec r' r) as [L'|L']; [|lia]. assert (M := start_mono (r' + 1) r ltac:(lia)). lia.
  Qed.
End Parts.

Lemma part_eq ns ts g size r : 0 < ns -> 0 < ts -> 0 <= size -> (ts | size) -> size <= g -> 0 <= r < ns ->
  exists i, part ns ts r g size = (start ns (g / ts) r, i) /\ 0 <= i /\
  forall e, 0 <= e -> (start ns (g / ts) r <= e < start ns (g / ts) r + i <->
                       start ns (g / ts) r <= e < start ns (g / ts) (r + 1) /\ e < size / ts).
Proof.
  intros Hns Hts Hs [m Hm] Hg Hr. unfold part. assert (Hlt := proj2 (Z.ltb_lt r ns) (proj2 Hr)). rewrite Hlt.
  assert (Hn : 0 <= g / ts) by (apply Z.div_pos; lia).
  rewrite (Z.quot_div_nonneg g ts) by lia. rewrite (Z.quot_div_nonneg (g / ts) ns) by lia.
  rewrite (Z.rem_mod_nonneg (g / ts) ns) by lia. set (n := g / ts) in *. cbv zeta.
  assert (E : (if r <? n mod ns then (n / ns * r + r, n / ns + 1) else (n / ns * r + n mod ns, n / ns)) =
              (start ns n r, start ns n (r + 1) - start ns n r)).
  { rewrite start_step by assumption. unfold start. assert (X := Z.mod_pos_bound n ns Hns). destruct (Z.ltb_spec r (n mod ns)); f_equal; lia. }
  rewrite E. clear E. rewrite (Z.quot_div_nonneg size ts) by lia.
  assert (Em : size / ts = m) by (subst size; apply Z.div_mul; lia). rewrite Em.
  assert (M := start_mono ns n Hns Hn r (r + 1) ltac:(lia)).
  set (a := start ns n r) in *. set (b := start ns n (r + 1)) in *. subst size. clearbody n a b. clear Em.
  destruct (Z.ltb_spec (m * ts) (a * ts)) as [L|L].
  - exists 0. split; [reflexivity|]. split; [lia|]. assert (m < a) by (apply (Z.mul_lt_mono_pos_r ts); assumption).
    intros e He. lia.
  - assert (m >= a) by (apply Z.le_ge, (Z.mul_le_mono_pos_r _ _ ts); assumption).
    replace (a + (b - a)) with b by lia. destruct (Z.ltb_spec (m * ts) (b * ts)) as [L2|L2].
    + assert (m < b) by (apply (Z.mul_lt_mono_pos_r ts); assumption).
      exists (m - a). split; [reflexivity|]. split; [lia|]. intros e He. lia.
    + assert (b <= m) by (apply (Z.mul_le_mono_pos_r _ _ ts); assumption).
      exists (b - a). split; [reflexivity|]. split; [lia|]. intros e He. lia.
Qed.

Lemma div_range b ts a i : 0 < ts -> 0 <= b -> (a * ts <= b < (a + i) * ts <-> a <= b / ts < a + i).
Proof.
  intros Ht Hb. assert (D := Z.div_mod b ts ltac:(lia)). assert (R := Z.mod_pos_bound b ts Ht).
  set (q := b / ts) in *. set (m := b mod ts) in *. clearbody q m. subst b. split.
  - intros [H1 H2]. split.
    + apply Z.lt_succ_r. apply (Z.mul_lt_mono_pos_r ts); [assumption|]. lia.
    + apply (Z.mul_lt_mono_pos_r ts); [assumption|]. lia.
  - intros [H1 H2]. assert (a * ts <= q * ts) by (apply Z.mul_le_mono_nonneg_r; lia).
    assert ((q + 1) * ts <= (a + i) * ts) by (apply Z.mul_le_mono_nonneg_r; lia). lia.
Qed.

Lemma moves_iff ns ts rank ls k c g b : 0 < ns -> 0 < ts -> 0 <= rank < ns ->
  nth_error ls k = Some (Cpy c) -> cp_split c = true -> 0 <= cp_size c -> (ts | cp_size c) -> cp_size c <= g ->
  nth_error (parallel ns ts rank ls) k = Some (emit ns ts rank (Cpy c) g) -> 0 <= b ->
  (moves ns ts rank ls k b <->
   start ns (g / ts) rank <= b / ts < start ns (g / ts) (rank + 1) /\ b / ts < cp_size c / ts).
Proof.
  intros Hns Hts Hr Hk Hc Hs Hd Hg Hp Hb.
  destruct (part_eq ns ts g (cp_size c) rank Hns Hts Hs Hd Hg Hr) as (i & P & Hi & Pe).
  assert (He : 0 <= b / ts) by (apply Z.div_pos; lia). specialize (Pe (b / ts) He).
  assert (Ha : 0 <= start ns (g / ts) rank).
  { rewrite <- (start_0 ns (g / ts) Hns). apply start_mono; [assumption|apply Z.div_pos; lia|lia]. }
  unfold emit in Hp. rewrite Hc, P in Hp. rewrite <- Pe, <- (div_range b ts) by assumption.
  unfold moves. rewrite Hp, Hk. set (a := start ns (g / ts) rank) in *. clearbody a. clear P Pe Hp.
  destruct (Z.eqb_spec (i * ts) 0) as [Z0|Z0].
  - assert (i = 0) by (apply Z.eq_mul_0_l in Z0; lia). subst i. split.
    + intros (x & y & _ & E & _). discriminate.
    + rewrite Z.add_0_r. lia.
  - split.
    + intros (x & y & [= <-] & [= <-] & _ & H). cbn [cp_off1 cp_size] in H. rewrite Z.mul_add_distr_r. lia.
    + intros H. exists c. eexists. split; [reflexivity|]. split; [reflexivity|]. cbn [cp_off1 cp_off2 cp_size].
      rewrite Z.mul_add_distr_r in H. split; lia.
Qed.

Section Final.
  Context (ns ts : Z) (ls : list ln) (Hns : 0 < ns) (Hts : 0 < ts) (He : elementwise ts ls) (Hu : unbroken ls).
  Lemma line_group k c : nth_error ls k = Some (Cpy c) -> cp_split c = true ->
    exists g, nth_error (plan (Taint (-1)) ls) k = Some g /\ cp_size c <= g /\
    forall rank b, 0 <= rank < ns -> 0 <= b ->
    (moves ns ts rank ls k b <->
     start ns (g / ts) rank <= b / ts < start ns (g / ts) (rank + 1) /\ b / ts < cp_size c / ts).
  Proof using Hns Hts He Hu.
    intros Hk Hc. assert (P : forall c, In (Cpy c) ls -> 0 <= cp_off1 c) by (intros; apply He; assumption).
    destruct (He c (nth_error_In _ _ Hk)) as (E1 & E2 & E3).
    destruct (parallel_plan ns ts 0 ls k _ Hu P Hk) as (g & G1 & _ & G3).
    exists g. split; [assumption|]. specialize (G3 c eq_refl Hc). split; [assumption|].
    intros rank b Hr Hb. destruct (parallel_plan ns ts rank ls k _ Hu P Hk) as (g' & G1' & G2' & _).
    rewrite G1 in G1'. inversion G1'; subst g'. apply moves_iff; assumption.
  Qed.

  Lemma size_div c b : In (Cpy c) ls -> 0 <= b -> (b / ts < cp_size c / ts <-> b < cp_size c).
  Proof using Hts He.
    clear Hns Hu. intros Hin Hb. destruct (He c Hin) as (_ & Hs & [m Hm]). rewrite Hm, Z.div_mul by lia. split; intros H.
    - assert (X := Z.mul_div_le b ts Hts). assert (R := Z.mod_pos_bound b ts Hts). assert (D := Z.div_mod b ts ltac:(lia)).
      assert ((b / ts + 1) * ts <= m * ts) by (apply Z.mul_le_mono_nonneg_r; lia). lia.
    - apply Z.div_lt_upper_bound; lia.
  Qed.

  Lemma unique_core k c b : nth_error ls k = Some (Cpy c) -> cp_split c = true -> 0 <= b < cp_size c ->
    exists! r, 0 <= r < ns /\ moves ns ts r ls k b.
  Proof using Hns Hts He Hu.
    intros Hk Hc Hb. destruct (line_group k c Hk Hc) as (g & _ & Hg & M).
    assert (Hbt := proj2 (size_div c b (nth_error_In _ _ Hk) (proj1 Hb)) (proj2 Hb)).
    assert (H0 : 0 <= b / ts) by (apply Z.div_pos; lia).
    assert (Hgt : cp_size c / ts <= g / ts) by (apply Z.div_le_mono; assumption).
    assert (Hg0 : 0 <= g / ts) by lia.
    destruct (start_find ns (g / ts) Hns (b / ts) ltac:(lia)) as (r & R1 & R2).
    exists r. split.
    - split; [assumption|]. apply M; [assumption|lia|]. split; assumption.
    - intros r' [R1' M']. apply M in M'; [|assumption|lia]. destruct M' as [M' _].
      apply (start_unique ns (g / ts) Hns Hg0 (b / ts)); assumption.
  Qed.
  Lemma inside k c b r : nth_error ls k = Some (Cpy c) -> cp_split c = true -> 0 <= b -> 0 <= r < ns ->
    moves ns ts r ls k b -> b < cp_size c.
  Proof using Hns Hts He Hu.
    intros Hk Hc Hb Hr M. destruct (line_group k c Hk Hc) as (g & _ & _ & Hm).
    apply Hm in M; try assumption. apply (size_div c b (nth_error_In _ _ Hk) Hb). apply M.
  Qed.
  Lemma same_core j k cj ck b r r' : same_run ls j k -> (j <= k)%nat ->
    nth_error ls j = Some (Cpy cj) -> cp_split cj = true -> nth_error ls k = Some (Cpy ck) -> cp_split ck = true ->
    0 <= b -> 0 <= r < ns -> 0 <= r' < ns -> moves ns ts r ls j b -> moves ns ts r' ls k b -> r = r'.
  Proof using Hns Hts He Hu.
    intros S L Hj Sj Hk Sk Hb Hr Hr' Mj Mk.
    destruct (line_group j cj Hj Sj) as (g & G1 & Gs & M1). destruct (line_group k ck Hk Sk) as (g' & G1' & _ & M2).
    rewrite (plan_run ls _ j k S L), G1' in G1. inversion G1; subst g'.
    apply M1 in Mj; try assumption. apply M2 in Mk; try assumption.
    destruct (He cj (nth_error_In _ _ Hj)) as (_ & Hs & _).
    apply (start_unique ns (g / ts) Hns ltac:(apply Z.div_pos; lia) (b / ts)); [apply Mj|apply Mk].
  Qed.
End Final.
