(* Arithmetic of the partner computation of src/core/allreduce_recursive.c. *)
From Verif Require Import Base SchedModel RecursiveModel.

Section Arith.
  Context (g p : nat) (Hg : 0 < g).
  Let G := g * (p + 1).

  Lemma G_pos : 0 < G.
  Proof. unfold G; nia. Qed.

  Lemma div_unique a b q r : r < b -> a = b * q + r -> a / b = q.
  Proof. intros. symmetry; eapply Nat.div_unique; eauto. Qed.
  Lemma mod_unique a b q r : r < b -> a = b * q + r -> a mod b = r.
  Proof. intros. symmetry; eapply Nat.mod_unique; eauto. Qed.

  Lemma compose T D o : D <= p -> o < g ->
    let t := (T * (p + 1) + D) * g + o in
    t / G = T /\ t / g = T * (p + 1) + D /\ t mod g = o /\ t mod G = D * g + o.
  Proof.
    intros HD Ho t. unfold t, G. repeat split.
    - apply div_unique with (D * g + o); nia.
    - apply div_unique with o; nia.
    - apply mod_unique with (T * (p + 1) + D); nia.
    - apply mod_unique with T; nia.
  Qed.

  Lemma decompose t : exists T D o, D <= p /\ o < g /\ t = (T * (p + 1) + D) * g + o.
  Proof.
    exists (t / g / (p + 1)), ((t / g) mod (p + 1)), (t mod g).
    assert (H1 := Nat.mod_upper_bound (t / g) (p + 1) ltac:(lia)).
    assert (H2 := Nat.mod_upper_bound t g ltac:(lia)).
    assert (H3 := Nat.div_mod (t / g) (p + 1) ltac:(lia)).
    assert (H4 := Nat.div_mod t g ltac:(lia)).
    split; [lia|split; [lia|]].
    rewrite (Nat.mul_comm _ (p + 1)), <- H3. lia.
  Qed.

  Lemma partner_eq T D o i : D <= p -> o < g ->
    partner G g ((T * (p + 1) + D) * g + o) i = (T * (p + 1) + (D + i + 1) mod (p + 1)) * g + o.
  Proof.
    intros HD Ho. unfold partner.
    destruct (compose T D o HD Ho) as (E1 & _). rewrite E1. clear E1.
    assert (H1 := Nat.mod_upper_bound (D + i + 1) (p + 1) ltac:(lia)).
    assert (H3 := Nat.div_mod (D + i + 1) (p + 1) ltac:(lia)).
    set (r := (D + i + 1) mod (p + 1)) in *. set (k := (D + i + 1) / (p + 1)) in *.
    rewrite (mod_unique _ G (T + k) (r * g + o)); unfold G; nia.
  Qed.

  Lemma partner_mod_range T D o i : D <= p -> o < g -> 
    exists D', D' <= p /\ partner G g ((T * (p + 1) + D) * g + o) i = (T * (p + 1) + D') * g + o.
  Proof.
    intros HD Ho. exists ((D + i + 1) mod (p + 1)). split; [|apply partner_eq; assumption].
    assert (H1 := Nat.mod_upper_bound (D + i + 1) (p + 1) ltac:(lia)). lia.
  Qed.

  (* the partner of a line of another small group: the node at the same
     position in that group *)
  Lemma partner_target l t : l / G = t / G -> l / g <> t / g ->
    partner G g t (partner_index G g l t) = l / g * g + t mod g.
  Proof.
    intros E D.
    destruct (decompose t) as (T & d & o & Hd & Ho & Et).
    destruct (decompose l) as (T' & d' & o' & Hd' & Ho' & El).
    destruct (compose T d o Hd Ho) as (A1 & A2 & A3 & _).
    destruct (compose T' d' o' Hd' Ho') as (B1 & B2 & B3 & _).
    rewrite <- Et in *. rewrite <- El in *.
    rewrite A1, B1 in E. subst T'. rewrite A2, B2 in D.
    unfold partner_index. rewrite A2, B2, A3.
    assert (Gp : p + 1 <= G) by (unfold G; nia).
    destruct (T * (p + 1) + d <? T * (p + 1) + d') eqn:C.
    - apply Nat.ltb_lt in C.
      replace (G + (T * (p + 1) + d') - (T * (p + 1) + d) - 1) with ((d' - d - 1) + 1 * G) by lia.
      rewrite Nat.mod_add by lia. rewrite (Nat.mod_small (d' - d - 1)) by lia.
      rewrite Et, partner_eq by assumption.
      replace (d + (d' - d - 1) + 1) with d' by lia. rewrite Nat.mod_small by lia. reflexivity.
    - apply Nat.ltb_ge in C.
      replace (G + (T * (p + 1) + d') - (T * (p + 1) + d)) with (G - (d - d')) by lia.
      rewrite (Nat.mod_small (G - (d - d'))) by lia.
      rewrite Et, partner_eq by assumption.
      replace (d + (G - (d - d') - 1) + 1) with (d' + g * (p + 1)) by (unfold G in *; lia).
      rewrite Nat.mod_add, Nat.mod_small by lia. reflexivity.
  Qed.

  Lemma partner_peer t i : i < p ->
    partner G g t i / G = t / G /\ partner G g t i mod g = t mod g /\
    partner G g t i <> t /\ partner G g t i / g <> t / g.
  Proof.
    intros Hi. destruct (decompose t) as (T & d & o & Hd & Ho & Et).
    destruct (compose T d o Hd Ho) as (A1 & A2 & A3 & _).
    rewrite <- Et in *. rewrite A1, A2, A3.
    set (r := (d + i + 1) mod (p + 1)).
    assert (H1 := Nat.mod_upper_bound (d + i + 1) (p + 1) ltac:(lia)). fold r in H1.
    assert (E : partner G g t i = (T * (p + 1) + r) * g + o) by (rewrite Et at 1; apply partner_eq; assumption).
    destruct (compose T r o ltac:(lia) Ho) as (B1 & B2 & B3 & _).
    rewrite E, B1, B2, B3.
    assert (R : r <> d).
    { unfold r. destruct (le_lt_dec (d + i + 1) p).
      - rewrite Nat.mod_small by lia. lia.
      - replace (d + i + 1) with ((d + i - p) + 1 * (p + 1)) by lia.
        rewrite Nat.mod_add, Nat.mod_small by lia. lia. }
    split; [reflexivity|split; [reflexivity|split]].
    - rewrite Et. clear -R Hg. intros X. apply R.
      assert (Y : (T * (p + 1) + r) * g = (T * (p + 1) + d) * g) by lia.
      apply Nat.mul_cancel_r in Y; lia.
    - clear -R. lia.
  Qed.

  Lemma partner_surj t u : u / G = t / G -> u mod g = t mod g -> u <> t ->
    exists i, i < p /\ partner G g t i = u.
  Proof.
    intros E1 E2 Du. destruct (decompose t) as (T & d & o & Hd & Ho & Et).
    destruct (decompose u) as (T' & d' & o' & Hd' & Ho' & Eu).
    destruct (compose T d o Hd Ho) as (A1 & A2 & A3 & _).
    destruct (compose T' d' o' Hd' Ho') as (B1 & B2 & B3 & _).
    rewrite <- Et in *. rewrite <- Eu in *.
    rewrite A1, B1 in E1. rewrite A3, B3 in E2. subst T' o'.
    assert (Dd : d' <> d) by congruence.
    destruct (le_lt_dec d d').
    - exists (d' - d - 1). split; [lia|]. rewrite Et, partner_eq by assumption.
      replace (d + (d' - d - 1) + 1) with d' by lia. rewrite Nat.mod_small by lia. congruence.
    - exists (p + d' - d). split; [lia|]. rewrite Et, partner_eq by assumption.
      replace (d + (p + d' - d) + 1) with (d' + 1 * (p + 1)) by lia.
      rewrite Nat.mod_add, Nat.mod_small by lia. congruence.
  Qed.

  Lemma partner_inj t i j : i < p -> j < p -> partner G g t i = partner G g t j -> i = j.
  Proof.
    intros Hi Hj E. destruct (decompose t) as (T & d & o & Hd & Ho & Et).
    rewrite Et, !partner_eq in E by assumption.
    assert (R : (d + i + 1) mod (p + 1) = (d + j + 1) mod (p + 1)).
    { revert E. generalize ((d + i + 1) mod (p + 1)) ((d + j + 1) mod (p + 1)). clear -Hg.
      intros x y E. assert (Y : (T * (p + 1) + x) * g = (T * (p + 1) + y) * g) by lia.
      apply Nat.mul_cancel_r in Y; lia. }
    clear E.
    assert (W : forall x, x < p -> (d + x + 1) mod (p + 1) = if d + x + 1 <=? p then d + x + 1 else d + x - p).
    { intros x Hx. destruct (Nat.leb_spec (d + x + 1) p).
      - apply Nat.mod_small; lia.
      - replace (d + x + 1) with ((d + x - p) + 1 * (p + 1)) by lia.
        rewrite Nat.mod_add, Nat.mod_small by lia. reflexivity. }
    rewrite !W in R by assumption.
    destruct (Nat.leb_spec (d + i + 1) p); destruct (Nat.leb_spec (d + j + 1) p); lia.
  Qed.

  Lemma peer_range t u : u / G = t / G -> t / G * G <= u < t / G * G + G.
  Proof.
    intros E. rewrite <- E. assert (Gp := G_pos).
    assert (H := Nat.div_mod u G ltac:(lia)). assert (M := Nat.mod_upper_bound u G ltac:(lia)). lia.
  Qed.
  Lemma range_peer t u : t / G * G <= u < t / G * G + G -> u / G = t / G.
  Proof. intros E. apply div_unique with (u - t / G * G); lia. Qed.
  Lemma small_in_big t u : u / g = t / g -> u / G = t / G.
  Proof. unfold G. intros E. rewrite <- !Nat.div_div by lia. rewrite E; reflexivity. Qed.
End Arith.

Lemma group_range g u : 0 < g -> forall x, (u / g * g <= x < u / g * g + g <-> x / g = u / g).
Proof.
  intros Hg x. split; intros H.
  - symmetry; apply Nat.div_unique with (x - u / g * g); lia.
  - rewrite <- H. assert (E := Nat.div_mod x g ltac:(lia)).
    assert (M := Nat.mod_upper_bound x g ltac:(lia)). lia.
Qed.

(* groups fit into a multiple of their size *)
Lemma group_fits N G t : 0 < G -> N mod G = 0 -> t < N -> t / G * G + G <= N.
Proof.
  intros HG HN Ht. assert (E := Nat.div_mod N G ltac:(lia)). rewrite HN in E.
  assert (M := Nat.div_lt_upper_bound t G (N / G) ltac:(lia) ltac:(lia)). nia.
Qed.
Lemma group_lt N G t u : 0 < G -> N mod G = 0 -> t < N -> u / G = t / G -> u < N.
Proof.
  intros HG HN Ht E. assert (F := group_fits N G t HG HN Ht).
  apply (group_range G t HG) in E. lia.
Qed.
