(* The contents of the lines in the spreading part of the cyclic allreduce. *)
From Verif Require Import Base SchedModel SchedSpec SchedProofs MatchProofs CombineProofs CyclicProofs CycRedModel ShiftProofs LooseSpec LooseChain
  CycRedDown CycRedClosure CycRedPlace CycRedSpread.
Local Ltac Zify.zify_post_hook ::= idtac.

(* node x has contributed to line n of node q; R: the line of the reducing part
   that got the contribution *)
Definition owns (N s : nat) (R : nat -> nat) (q n x : nat) : bool :=
  (cls N s n + N - R ((q + cls N s n + N - x) mod N)) mod N <=? n / s.
Definition filled {V} (op : V -> V -> V) N (X : nat -> nat -> V) s R (u : nat -> bool) (k : nat) (S : nat -> nat -> V) : Prop :=
  forall q n, q < N -> n < k -> u n = true -> Some (S q (cr_place u n)) = partial op N X ((q + cls N s n) mod N) (owns N s R q n).

Lemma window N e jd c r : c < N -> r <= N -> e + jd < N ->
  ((c + N - r) mod N <= jd <-> e <= ((c + e) mod N + N - r) mod N <= e + jd).
Proof.
  intros Hc Hr He. assert (E : ((c + e) mod N + N - r) mod N = ((c + N - r) mod N + e) mod N).
  { rewrite <- Nat.add_sub_assoc, !Nat.add_mod_idemp_l by lia. f_equal. lia. }
  rewrite E. pose proof (Nat.mod_upper_bound (c + N - r) N ltac:(lia)) as B. revert B. generalize ((c + N - r) mod N). intros v B.
  clear E. destruct (Nat.lt_ge_cases (v + e) N) as [L|L]; [rewrite Nat.mod_small by auto; lia|].
  replace (v + e) with (v + e - N + 1 * N) by lia. rewrite Nat.mod_add, Nat.mod_small by lia. lia.
Qed.
Lemma cls_line N s a r : r < s -> cls N s (a * s + r) = (a + r) mod N.
Proof.
  intros H. unfold cls. rewrite (Nat.add_comm (a * s)), Nat.div_add, Nat.mod_add by lia. rewrite (Nat.div_small r s), (Nat.mod_small r s) by auto. reflexivity.
Qed.
Lemma cls_back N c r : c < N -> r <= N -> ((c + N - r) mod N + r) mod N = c.
Proof.
  intros Hc Hr. rewrite Nat.add_mod_idemp_l by lia. replace (c + N - r + r) with (c + 1 * N) by lia. rewrite Nat.mod_add by lia. now apply Nat.mod_small.
Qed.
Lemma pair_union {V} (op : V -> V -> V) (Oa : forall a b c, op a (op b c) = op (op a b) c) (Oc : forall a b, op a b = op b a) N X f a b c ca cb :
  Some a = partial op N X f ca -> Some b = partial op N X f cb ->
  (forall x, x < N -> ca x = true -> cb x = true -> False) -> (forall x, x < N -> (c x = true <-> ca x = true \/ cb x = true)) ->
  Some (op a b) = partial op N X f c.
Proof.
  intros A B D U.
  assert (H := combine_union op Oa Oc (fun x => X x f) N (fun k => match k with 0 => ca | _ => cb end) c [0; 1]
    (fun k => match k with 0 => a | _ => b end)).
  unfold partial in *. rewrite <- H; [reflexivity| | | |].
  - repeat constructor; cbn; intuition lia.
  - intros k [<-|[<-|[]]]; assumption.
  - intros k k' x [<-|[<-|[]]] [<-|[<-|[]]] Hx P Q; auto; exfalso; eapply D; eauto.
  - intros x Hx. rewrite U by auto. split.
    + intros [P|P]; [exists 0|exists 1]; cbn; auto.
    + intros (k & [<-|[<-|[]]] & P); auto.
Qed.

Section Step.
  Context {V : Type} (op : V -> V -> V) (Oa : forall a b c, op a (op b c) = op (op a b) c) (Oc : forall a b, op a b = op b a).
  Context (N : nat) (X : nat -> nat -> V) (s : nat) (R : nat -> nat) (Hs : 0 < s) (HsN : s <= N) (HR : forall L, L < N -> R L < s).
  Context (g p w s0 s1 : nat) (Hg : 0 < g) (Hgw : g * p < w) (HwN : w <= N) (Hwg : w <= g * (p + 1)) (E0 : s0 = s * g) (E1 : s1 = s * w).
  Context (prev : nat -> block) (Hprev : by_cls N s s0 prev) (u : nat -> bool) (U0 : u 0 = true).
  Context (U1 : forall n, s0 <= n < s1 -> u n = true -> u ((n - s0) mod s0) = true).
  Context (U2 : forall n j, s0 <= n < s1 -> u n = true -> src N s s0 n = Some j -> u j = true).
  Local Notation place := (cr_place u).
  Local Notation x := (fun q => cr_spread N s0 s1 g p q (prev q)).
  Local Notation kx := (fun q => cr_keep u false (cr_spread N s0 s1 g p q (prev q))).
  Local Notation ky := (fun q => cr_keep u false (cr_collect (cr_spread N s0 s1 g p q (prev q)))).

  Context (kprev : nat -> block) (Hk : forall q n, q < N -> n < s0 -> u n = true -> same_to (kprev q) (kx q) (place n)).
  Lemma up_step a c : filled op N X s R u s0 a -> chain op N kprev [kx; ky] a c -> filled op N X s R u s1 c.
  Proof.
    intros F (st & s1' & A & B & st' & s2' & A' & B' & C) q n Hq. induction n as [n IH] using lt_wf_ind. intros Hn Hu.
    pose proof (s0_pos s g s0 Hs Hg E0) as P0. assert (HN : 0 < N) by lia.
    rewrite C, B' by auto.
    rewrite (collect_value N s g p w s0 s1 Hs Hg Hgw HwN Hwg E0 E1 prev Hprev u U1 U2 op st' q n Hq Hn Hu).
    rewrite A' by (auto; intros k _; reflexivity). rewrite B by auto.
    destruct (Nat.ltb_spec n s0) as [L|L].
    - rewrite (keep_old N s g p w s0 s1 Hs Hg Hgw HwN Hwg E0 E1 prev u U0 U1 U2 op st q n Hq L Hu). rewrite A by (auto; apply Hk; auto). now apply F.
    - destruct (line_split N s g p w s0 s1 Hs Hg Hgw HwN Hwg E0 E1 n (conj L Hn)) as (i & j & Hi & Hj & En & Ed & X1 & X2 & HiN & Y1 & Y2 & Y3 & Y4).
      rewrite (keep_new N s g p w s0 s1 Hs Hg Hgw HwN Hwg E0 E1 prev u U0 U1 U2 op st q n i j Hq (conj L Hn) Hu Hi Hj En).
      assert (Y5 : (i + 1) * g <= n / s) by (rewrite Y1; apply Nat.le_add_r).
      assert (Uj : u j = true) by (rewrite <- X2; now apply U1).
      set (q' := (q + (i + 1) * g) mod N). assert (Hq' : q' < N) by (apply Nat.mod_upper_bound; lia).
      rewrite A by (auto; apply Hk; auto).
      assert (Fj := F q' j Hq' Hj Uj).
      assert (Ec := cls_new N s g p w s0 s1 Hs Hg Hgw HwN Hwg E0 E1 i j n Y1 Y2).
      pose proof (cls_lt N s j HN) as Cj. pose proof (cls_lt N s n HN) as Cn.
      assert (Ef : (q' + cls N s j) mod N = (q + cls N s n) mod N).
      { rewrite Ec. unfold q'. rewrite Nat.add_mod_idemp_l, Nat.add_mod_idemp_r by lia. f_equal. lia. }
      rewrite Ef in Fj.
      set (r := fun y => R ((q + cls N s n + N - y) mod N)).
      assert (Hr : forall y, r y < s) by (intros y; apply HR; apply Nat.mod_upper_bound; lia).
      set (v := fun y => (cls N s n + N - r y) mod N).
      assert (Fj' : Some (a q' (place j)) = partial op N X ((q + cls N s n) mod N) (fun y => ((i + 1) * g <=? v y) && (v y <=? n / s))).
      { rewrite Fj. apply (partial_ext op Oa Oc). intros y Hy. unfold owns. rewrite (mod_shift_sub N (q' + cls N s j) (q + cls N s n) y) by (auto; lia).
        fold (r y). apply eq_true_iff_eq. rewrite andb_true_iff, !Nat.leb_le. rewrite Y1. unfold v. rewrite Ec.
        specialize (Hr y). apply window; auto; lia. }
      (* lines of contributions that are not there yet *)
      assert (M : forall y, v y < (i + 1) * g -> v y * s + r y < n / s0 * s0 /\ cls N s (v y * s + r y) = cls N s n).
      { intros y Hv. split.
        - rewrite Ed, E0. specialize (Hr y). assert ((v y + 1) * s <= (i + 1) * g * s) by (apply Nat.mul_le_mono_r; lia). lia.
        - rewrite cls_line by auto. unfold v. apply cls_back; auto. specialize (Hr y). lia. }
      assert (Own : forall y, owns N s R q n y = (v y <=? n / s)) by reflexivity.
      destruct (src N s s0 n) as [m|] eqn:Es.
      + assert (Um := U2 n m (conj L Hn) Hu Es). apply src_some in Es. destruct Es as (Lm & Em & Top).
        pose proof (Nat.mul_div_le n s0 ltac:(lia)) as Ln.
        assert (Sm : stage op N ky st' q (place m) = c q (place m)) by (rewrite C, B' by auto; reflexivity).
        rewrite Sm. assert (Fm := IH m ltac:(lia) ltac:(lia) Um). rewrite Em in Fm.
        assert (Hm : m / s < (i + 1) * g) by (apply Nat.div_lt_upper_bound; [lia|]; rewrite Ed, E0 in Lm; lia).
        assert (OwnM : forall y, owns N s R q m y = (v y <=? m / s)) by (intros y; unfold owns, v, r; now rewrite Em).
        refine (pair_union op Oa Oc N X _ _ _ _ _ _ Fj' Fm _ _).
        * intros y Hy. rewrite andb_true_iff, OwnM, !Nat.leb_le. lia.
        * intros y Hy. rewrite Own, OwnM, andb_true_iff, !Nat.leb_le. split; [|clear - Y5 Hm; lia]. intros Hv.
          destruct (Nat.lt_ge_cases (v y) ((i + 1) * g)) as [Lv|Gv]; [|left; auto]. right.
          destruct (M y Lv) as [M1 M2]. destruct (Nat.lt_ge_cases (m / s) (v y)) as [Lt|]; auto. exfalso.
          apply (Top (v y * s + r y)); auto. split; auto.
          assert (m < s * S (m / s)) by (apply Nat.mul_succ_div_gt; lia). assert (S (m / s) * s <= v y * s) by (apply Nat.mul_le_mono_r; lia). lia.
      + rewrite Fj'. apply (partial_ext op Oa Oc). intros y Hy. rewrite Own. apply eq_true_iff_eq. rewrite andb_true_iff, !Nat.leb_le. split; [lia|].
        intros Hv. split; auto. destruct (Nat.lt_ge_cases (v y) ((i + 1) * g)) as [Lv|]; auto. exfalso.
        destruct (M y Lv) as [M1 M2]. now apply (src_none N s s0 n Es (v y * s + r y)).
  Qed.
End Step.
