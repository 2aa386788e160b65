From Coq Require Import Permutation.
From Verif Require Import Base SchedModel SchedSpec SchedProofs RecursiveModel RecursiveProofs GroupProofs PermModel.
Local Ltac Zify.zify_post_hook ::= idtac.

(* ----- one round ----- *)
Lemma take_keys org old new : map n_key (take org old new) = map n_key (filter (fun a => n_color a =? old) org).
Proof. unfold take. rewrite map_map. reflexivity. Qed.
Lemma take_colors org old new a : In a (take org old new) -> n_color a = new.
Proof. unfold take. intros H. apply in_map_iff in H. destruct H as (b & <- & _). reflexivity. Qed.
Lemma take_values org old new a : In a (take org old new) -> exists b, In b org /\ n_value a = n_value b.
Proof.
  unfold take. intros H. apply in_map_iff in H. destruct H as (b & <- & H). apply filter_In in H. exists b. tauto.
Qed.

Lemma split_color {A} (col : A -> nat) c (l : list A) : (forall a, In a l -> col a < c) ->
  Permutation (flat_map (fun k => filter (fun a => col a =? k) l) (seq 0 c)) l.
Proof.
  induction l as [|a l IH]; intros H.
  - rewrite flat_map_nil by reflexivity. constructor.
  - assert (Ha := H a (or_introl eq_refl)).
    assert (E : Permutation (flat_map (fun k => filter (fun b => col b =? k) (a :: l)) (seq 0 c))
                            (a :: flat_map (fun k => filter (fun b => col b =? k) l) (seq 0 c))).
    { clear IH H. assert (S : seq 0 c = seq 0 (col a) ++ col a :: seq (S (col a)) (c - S (col a))).
      { rewrite <- (seq_app (col a) (S (c - S (col a)))). f_equal. lia. }
      rewrite S, !flat_map_app. cbn [flat_map filter]. rewrite Nat.eqb_refl.
      assert (F : forall ks, ~ In (col a) ks ->
        flat_map (fun k => filter (fun b => col b =? k) (a :: l)) ks = flat_map (fun k => filter (fun b => col b =? k) l) ks).
      { intros ks Hk. apply flat_map_ext_in. intros k Hx. cbn [filter]. destruct (Nat.eqb_spec (col a) k); [subst; tauto|reflexivity]. }
      cbn [flat_map filter] in F. rewrite !F by (intros X; apply in_seq in X; lia).
      symmetry. apply (Permutation_middle (flat_map _ (seq 0 (col a)))). }
    rewrite E. constructor. apply IH. intros; apply H; now right.
Qed.

Lemma flat_map_perm {A B} (f : A -> list B) l l' : Permutation l l' -> Permutation (flat_map f l) (flat_map f l').
Proof. intros H. apply Permutation_flat_map. exact H. Qed.

Lemma inj_perm (f : nat -> nat) c : (forall i, i < c -> f i < c) ->
  (forall i j, i < c -> j < c -> f i = f j -> i = j) -> Permutation (map f (seq 0 c)) (seq 0 c).
Proof.
  intros Hr Hi. apply NoDup_Permutation_bis.
  - rewrite <- (map_id (seq 0 c)) at 1. 
    assert (X : forall l, NoDup l -> (forall x, In x l -> x < c) -> NoDup (map f (map (fun x => x) l))).
    { intros l. rewrite map_id. induction l as [|a l IH]; intros Hn Hl; [constructor|]. inversion Hn; subst. constructor.
      - intros X. apply in_map_iff in X. destruct X as (b & E & Hb). apply Hi in E; [congruence| |]; apply Hl; [now right|now left].
      - apply IH; [assumption|intros; apply Hl; now right]. }
    apply X; [apply seq_NoDup|]. intros x Hx. apply in_seq in Hx. lia.
  - rewrite map_length. lia.
  - intros x Hx. apply in_map_iff in Hx. destruct Hx as (i & <- & Hx). apply in_seq in Hx. apply in_seq.
    assert (X := Hr i ltac:(lia)). lia.
Qed.

Lemma map_nth_seq {A} (d : A) l : map (fun i => nth i l d) (seq 0 (length l)) = l.
Proof.
  induction l as [|a l IH]; [reflexivity|]. cbn [length seq map nth]. f_equal.
  rewrite <- seq_shift, map_map. cbn [nth]. exact IH.
Qed.

Lemma nth_perm (ord : list nat) c (f : nat -> nat) : Permutation ord (seq 0 c) ->
  (forall i, i < c -> f i < c) -> (forall i j, i < c -> j < c -> f i = f j -> i = j) ->
  Permutation (map (fun i => nth (f i) ord 0) (seq 0 c)) (seq 0 c).
Proof.
  intros Hp Hr Hi. assert (L := Permutation_length Hp). rewrite seq_length in L.
  rewrite <- (map_map f (fun i => nth i ord 0)). rewrite (inj_perm f c Hr Hi). rewrite <- L at 1. rewrite map_nth_seq. assumption.
Qed.

Lemma half i : exists h, (i = 2 * h /\ i / 2 = h /\ Nat.odd i = false) \/ (i = 2 * h + 1 /\ i / 2 = h /\ Nat.odd i = true).
Proof.
  exists (i / 2). assert (D := Nat.div_mod i 2 ltac:(lia)). assert (M := Nat.mod_upper_bound i 2 ltac:(lia)).
  destruct (Nat.eq_dec (i mod 2) 0) as [E|E]; [left|right]; (split; [lia|split; [reflexivity|]]).
  - rewrite <- Nat.negb_even. assert (X : Nat.even i = true) by (apply Nat.even_spec; exists (i / 2); lia). rewrite X. reflexivity.
  - apply Nat.odd_spec. exists (i / 2). lia.
Qed.

Lemma even_half c : Nat.even c = true -> exists m, c = 2 * m.
Proof. intros H. apply Nat.even_spec in H. exact H. Qed.
Lemma odd_half c : Nat.even c = false -> exists m, c = 2 * m + 1.
Proof. intros H. assert (X : Nat.odd c = true) by (unfold Nat.odd; rewrite H; reflexivity). apply Nat.odd_spec in X. exact X. Qed.

Lemma flat_map_map {A B C} (f : B -> list C) (g : A -> B) l : flat_map f (map g l) = flat_map (fun x => f (g x)) l.
Proof. induction l; cbn; congruence. Qed.
Lemma map_flat_map {A B C} (f : B -> C) (g : A -> list B) l : map f (flat_map g l) = flat_map (fun x => map f (g x)) l.
Proof. induction l; cbn; [reflexivity|]. rewrite map_app. congruence. Qed.

Lemma round_keys c ord org : Permutation ord (seq 0 c) -> (Nat.even c = false -> nth 0 ord 0 = 0) ->
  (forall a, In a org -> n_color a < c) ->
  Permutation (map n_key (round c ord org)) (map n_key org).
Proof.
  intros Hp H0 Hc. unfold round. destruct (Nat.even c) eqn:E.
  - destruct (even_half c E) as [m ->]. 
    rewrite map_flat_map. rewrite (flat_map_ext_in _ (fun i => map n_key (filter (fun a => n_color a =? nth (if Nat.odd i then 2 * m - 1 - i / 2 else i / 2) ord 0) org))).
    2:{ intros i _. rewrite take_keys. destruct (Nat.odd i); reflexivity. }
    rewrite <- (flat_map_map (fun k => map n_key (filter (fun a => n_color a =? k) org)) (fun i => nth (if Nat.odd i then 2 * m - 1 - i / 2 else i / 2) ord 0)).
    rewrite (flat_map_perm _ _ (seq 0 (2 * m))).
    + rewrite <- map_flat_map. apply Permutation_map. apply split_color. assumption.
    + apply nth_perm; [assumption|..].
      * intros i Hi. destruct (half i) as [h [(? & -> & ->)|(? & -> & ->)]]; lia.
      * intros i j Hi Hj. destruct (half i) as [h [(? & -> & ->)|(? & -> & ->)]], (half j) as [h' [(? & -> & ->)|(? & -> & ->)]]; lia.
  - specialize (H0 eq_refl). destruct (odd_half c E) as [m ->]. replace (2 * m + 1 - 1) with (2 * m) by lia.
    set (f := fun i => match i with 0 => 0 | S i => if Nat.odd i then 2 * m - i / 2 else i / 2 + 1 end).
    assert (X : map n_key (take org 0 0 ++ flat_map (fun i => take org (if Nat.odd i then nth (2 * m - i / 2) ord 0 else nth (i / 2 + 1) ord 0) (i / 2 + 1)) (seq 0 (2 * m))) =
       flat_map (fun k => map n_key (filter (fun a => n_color a =? k) org)) (map (fun i => nth (f i) ord 0) (seq 0 (2 * m + 1)))).
    { rewrite flat_map_map. replace (2 * m + 1) with (S (2 * m)) by lia. cbn [seq flat_map]. cbn [f]. rewrite H0.
      rewrite map_app, take_keys. f_equal. rewrite map_flat_map, <- seq_shift, flat_map_map. apply flat_map_ext_in.
      intros i _. rewrite take_keys. unfold f. destruct (Nat.odd i); reflexivity. }
    rewrite X. rewrite (flat_map_perm _ _ (seq 0 (2 * m + 1))).
    + rewrite <- map_flat_map. apply Permutation_map. apply split_color. assumption.
    + apply nth_perm; [assumption|..]; unfold f.
      * intros [|i] Hi; [lia|]. destruct (half i) as [h [(? & -> & ->)|(? & -> & ->)]]; lia.
      * intros [|i] [|j] Hi Hj; [lia|..]; try (destruct (half i) as [h [(? & -> & ->)|(? & -> & ->)]]);
          try (destruct (half j) as [h' [(? & -> & ->)|(? & -> & ->)]]); lia.
Qed.

Lemma round_in c ord org a : In a (round c ord org) ->
  n_color a < (c + 1) / 2 /\ exists b, In b org /\ n_value a = n_value b.
Proof.
  unfold round. destruct (Nat.even c) eqn:E; intros H.
  - apply in_flat_map in H. destruct H as (i & Hi & H). apply in_seq in Hi. split; [|eapply take_values; eassumption].
    apply take_colors in H. rewrite H. destruct (even_half c E) as [m ->].
    replace ((2 * m + 1) / 2) with m; [|apply Nat.div_unique with 1; lia].
    apply Nat.div_lt_upper_bound; lia.
  - destruct (odd_half c E) as [m ->].
    replace ((2 * m + 1 + 1) / 2) with (m + 1); [|apply Nat.div_unique with 0; lia].
    apply in_app_or in H. destruct H as [H|H].
    + split; [|eapply take_values; eassumption]. apply take_colors in H. lia.
    + apply in_flat_map in H. destruct H as (i & Hi & H). apply in_seq in Hi. split; [|eapply take_values; eassumption].
      apply take_colors in H. rewrite H. assert (i / 2 < m) by (apply Nat.div_lt_upper_bound; lia). lia.
Qed.

Lemma color_value_nonneg c org k : (forall a, In a org -> (0 <= n_value a)%Z) -> (0 <= color_value c org k)%Z.
Proof.
  intros H. unfold color_value. destruct (_ && _); [lia|].
  induction org as [|a l IH]; cbn [filter map fold_right]; [lia|].
  assert (Ha := H a (or_introl eq_refl)). assert (IH' := IH (fun b Hb => H b (or_intror Hb))).
  destruct (n_color a =? k); cbn [map fold_right]; lia.
Qed.

Lemma stable_zero c org ord : sort_result c org ord -> stable c org ord -> Nat.even c = false ->
  (forall a, In a org -> (0 <= n_value a)%Z) -> nth 0 ord 0 = 0.
Proof.
  intros [Hp Hs] Hst E Hv. assert (L := Permutation_length Hp). rewrite seq_length in L.
  assert (C : 0 < c) by (destruct c; [discriminate|lia]).
  assert (I : In 0 ord) by (apply (Permutation_in _ (Permutation_sym Hp)), in_seq; lia).
  apply (In_nth _ _ 0) in I. destruct I as (k & Hk & Ek). destruct k as [|k]; [assumption|]. exfalso.
  assert (V0 : color_value c org 0 = 0%Z).
  { unfold color_value. unfold Nat.odd. rewrite E. reflexivity. }
  assert (Le := Hs 0 (S k) ltac:(lia)). rewrite Ek, V0 in Le.
  assert (G := color_value_nonneg c org (nth 0 ord 0) Hv).
  assert (X := Hst 0 (S k) ltac:(lia)). rewrite Ek, V0 in X. specialize (X ltac:(lia)). lia.
Qed.

Lemma rounds_keys c org out : rounds stable c org out ->
  (forall a, In a org -> n_color a < c /\ (0 <= n_value a)%Z) ->
  Permutation (map n_key out) (map n_key org).
Proof.
  intros H. induction H as [c org ord Hs Hst Hc|c org ord out Hs Hst Hc Hr IH]; intros Ha.
  - apply round_keys; [apply Hs| |intros; apply Ha; assumption].
    intros E. apply (stable_zero c org ord Hs Hst E). intros; apply Ha; assumption.
  - rewrite IH.
    + apply round_keys; [apply Hs| |intros; apply Ha; assumption].
      intros E. apply (stable_zero c org ord Hs Hst E). intros; apply Ha; assumption.
    + intros a Hin. apply round_in in Hin. destruct Hin as (Hcol & b & Hb & ->). split; [assumption|apply Ha, Hb].
Qed.

Lemma start_keys sizes : map n_key (start sizes) = seq 0 (length sizes).
Proof. unfold start. rewrite map_map. cbn. apply map_id. Qed.

Lemma heuristic_perm sizes perm : Forall (fun s => (0 <= s)%Z) sizes -> heuristic stable sizes perm ->
  Permutation perm (seq 0 (length sizes)).
Proof.
  intros Hs (out & Hr & ->). rewrite <- start_keys. apply (rounds_keys _ _ _ Hr).
  intros a Ha. unfold start in Ha. apply in_map_iff in Ha. destruct Ha as (i & <- & Hi). apply in_seq in Hi. cbn.
  split; [lia|]. rewrite Forall_forall in Hs. apply Hs, nth_In. lia.
Qed.
Lemma chosen_perm sizes perm : Forall (fun s => (0 <= s)%Z) sizes -> chosen stable sizes perm ->
  Permutation perm (seq 0 (length sizes)).
Proof.
  intros Hs. unfold chosen. destruct (existsb _ _); [apply heuristic_perm, Hs|intros ->; reflexivity].
Qed.

(* ----- the inverse ----- *)
Section Inverse.
  Context (perm : list nat) (n : nat) (Hp : Permutation perm (seq 0 n)).
  Lemma perm_length : length perm = n.
  Proof. rewrite (Permutation_length Hp). apply seq_length. Qed.
  Lemma perm_bound i : i < n -> nth i perm 0 < n.
  Proof.
    intros Hi. assert (I : In (nth i perm 0) perm) by (apply nth_In; rewrite perm_length; assumption).
    apply (Permutation_in _ Hp), in_seq in I. lia.
  Qed.
  Lemma perm_inj i j : i < n -> j < n -> nth i perm 0 = nth j perm 0 -> i = j.
  Proof.
    intros Hi Hj. apply NoDup_nth; rewrite ?perm_length; try assumption.
    apply (Permutation_NoDup (Permutation_sym Hp)), seq_NoDup.
  Qed.
  Lemma perm_onto j : j < n -> exists i, i < n /\ nth i perm 0 = j.
  Proof.
    intros Hj. assert (I : In j perm) by (apply (Permutation_in _ (Permutation_sym Hp)), in_seq; lia).
    apply (In_nth _ _ 0) in I. destruct I as (i & Hi & E). rewrite perm_length in Hi. eauto.
  Qed.

  Lemma back_aux m : m <= n ->
    length (fold_left (fun b i => lset b (nth i perm 0) i) (seq 0 m) (repeat 0 (length perm))) = n /\
    forall i, i < m ->
      nth (nth i perm 0) (fold_left (fun b i => lset b (nth i perm 0) i) (seq 0 m) (repeat 0 (length perm))) 0 = i.
  Proof.
    induction m as [|m IH]; intros Hm.
    - cbn. rewrite repeat_length, perm_length. split; [reflexivity|lia].
    - destruct (IH ltac:(lia)) as [L E]. rewrite seq_S, fold_left_app. cbn [fold_left Nat.add].
      set (b := fold_left _ (seq 0 m) _) in *. split; [rewrite lset_length; assumption|].
      intros i Hi. destruct (Nat.eq_dec i m) as [->|D].
      + assert (X := lset_same b (nth m perm 0) m ltac:(rewrite L; apply perm_bound; lia)).
        apply (nth_error_nth _ _ 0) in X. exact X.
      + assert (X := lset_other b (nth m perm 0) (nth i perm 0) m ltac:(intros X; apply perm_inj in X; lia)).
        rewrite <- (E i) at 2 by lia. 
        assert (Y : nth_error b (nth i perm 0) = Some (nth (nth i perm 0) b 0)).
        { apply nth_error_nth'. rewrite L. apply perm_bound. lia. }
        rewrite Y in X. apply (nth_error_nth _ _ 0) in X. exact X.
  Qed.
  Lemma back_left i : i < n -> nth (nth i perm 0) (back_perm perm) 0 = i.
  Proof.
    intros Hi. unfold back_perm. assert (L := perm_length).
    replace (seq 0 (length perm)) with (seq 0 n) by congruence. apply back_aux; [lia|assumption].
  Qed.
  Lemma back_right j : j < n -> nth j (back_perm perm) 0 < n /\ nth (nth j (back_perm perm) 0) perm 0 = j.
  Proof.
    intros Hj. destruct (perm_onto j Hj) as (i & Hi & <-). rewrite back_left by assumption. auto.
  Qed.

  Lemma map_seq_nth {A} (f : nat -> A) k i d : i < k -> nth i (map f (seq 0 k)) d = f i.
  Proof.
    intros H. rewrite (nth_indep _ d (f 0)) by (rewrite map_length, seq_length; assumption).
    rewrite map_nth, seq_nth by assumption. reflexivity.
  Qed.

  Lemma round_trip s sizes : s < n -> length sizes = n ->
    backward perm (forward perm (s, sizes)) = (s, sizes).
  Proof.
    intros Hs L. unfold backward, forward. cbn [fst snd]. f_equal.
    - apply back_right, Hs.
    - rewrite map_length, seq_length, L.
      transitivity (map (fun i => nth i sizes 0%Z) (seq 0 n)); [|rewrite <- L; apply map_nth_seq]. apply map_ext_in. intros i Hi. apply in_seq in Hi.
      rewrite map_seq_nth by (apply perm_bound; lia). rewrite back_left by lia. reflexivity.
  Qed.

  (* node s of the permuted world is node perm[s] *)
  Lemma permuted_matched (LB : nat -> block) : well_matched n LB ->
    well_matched n (fun s => permute_block perm (LB (nth s (back_perm perm) 0))).
  Proof.
    intros Hw.
    apply (ren_matched n n (fun _ => tt) (fun s => nth s (back_perm perm) 0) (fun _ l => nth l perm 0)) with
      (ff := fun _ f => nth f perm 0) (LB := fun _ => LB).
    - intros s Hs. apply back_right, Hs.
    - intros s Hs. apply back_right, Hs.
    - intros s l Hs Hl. split; [apply perm_bound, Hl|]. split; [reflexivity|apply back_left, Hl].
    - intros s Hs. exact Hw.
    - intros s Hs. split; reflexivity.
  Qed.
End Inverse.
