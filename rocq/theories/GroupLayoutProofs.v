(* Which group get_num_ports_group selects, for configurations made of whole
   groups. *)
From Verif Require Import Base SchedModel GroupModel GroupSpec.
Local Open Scope Z_scope.

Lemma entries_split g : fst g <> [] ->
  exists ps p, fst g = ps ++ [p] /\
    entries g = map (fun q => (q, snd g)) ps ++ [(p, - snd g)].
Proof.
  intros H. destruct (exists_last H) as (ps & p & E). exists ps, p. split; [exact E|].
  unfold entries. rewrite E, removelast_last, last_last. reflexivity.
Qed.

Lemma entries_length g : fst g <> [] -> length (entries g) = length (fst g).
Proof.
  intros H. destruct (entries_split g H) as (ps & p & E & F). rewrite E, F, !app_length, map_length. reflexivity.
Qed.

Lemma entries_ports g : fst g <> [] -> map fst (entries g) = fst g.
Proof.
  intros H. destruct (entries_split g H) as (ps & p & E & F). rewrite F, E, map_app, map_map. cbn.
  rewrite map_id. reflexivity.
Qed.

Lemma combine_map_fst_snd {A B} (l : list (A * B)) : combine (map fst l) (map snd l) = l.
Proof. induction l as [|[a b] l IH]; cbn; [reflexivity|now rewrite IH]. Qed.

Lemma layout_entries gs n : combine (p_ports (layout gs n)) (p_groups (layout gs n)) = flat_map entries gs.
Proof. unfold layout; cbn. apply combine_map_fst_snd. Qed.

Definition proper (g : list Z * Z) : Prop := fst g <> [] /\ 2 <= snd g.

Lemma skip_entries g l : proper g -> skip (entries g ++ l) = l.
Proof.
  intros [H S]. destruct (entries_split g H) as (ps & p & E & F). rewrite F.
  clear E F H. induction ps as [|q ps IH]; cbn.
  - destruct (0 <? - snd g) eqn:X; [apply Z.ltb_lt in X; lia|reflexivity].
  - destruct (0 <? snd g) eqn:X; [exact IH|apply Z.ltb_ge in X; lia].
Qed.

Lemma one_group_entries g l : proper g -> one_group (entries g ++ l) = entries g.
Proof.
  intros [H S]. destruct (entries_split g H) as (ps & p & E & F). rewrite F.
  clear E F H. induction ps as [|q ps IH]; cbn.
  - destruct (0 <? - snd g) eqn:X; [apply Z.ltb_lt in X; lia|reflexivity].
  - destruct (0 <? snd g) eqn:X; [now rewrite IH|apply Z.ltb_ge in X; lia].
Qed.

Lemma iter_skip gs l : Forall proper gs ->
  Nat.iter (length gs) skip (flat_map entries gs ++ l) = l.
Proof.
  revert l. induction gs as [|g gs IH] using rev_ind; intros l H; [reflexivity|].
  apply Forall_app in H as [H1 H2]. inversion H2; subst.
  rewrite app_length, Nat.add_comm. cbn [length plus Nat.iter].
  rewrite flat_map_app, <- app_assoc. cbn [flat_map]. rewrite app_nil_r.
  cbn [Nat.add]. change (Nat.iter (S (length gs)) skip) with (fun l => skip (Nat.iter (length gs) skip l)). cbv beta.
  rewrite IH by assumption. now apply skip_entries.
Qed.

(* backwards *)
Lemma back_rev_entries gs g : Forall proper gs -> proper g ->
  back_step (rev (flat_map entries (gs ++ [g]))) = rev (flat_map entries gs).
Proof.
  intros Hs [H S]. rewrite flat_map_app, rev_app_distr. cbn [flat_map]. rewrite app_nil_r.
  destruct (entries_split g H) as (ps & p & E & F). rewrite F, rev_app_distr. cbn [rev app].
  unfold back_step. cbn [tl]. clear E F.
  assert (B : back (rev (flat_map entries gs)) = rev (flat_map entries gs)).
  { destruct gs as [|g' gs' _] using rev_ind; [reflexivity|].
    apply Forall_app in Hs as [_ Hg]. inversion Hg as [|? ? [H' S'] _]; subst.
    rewrite flat_map_app, rev_app_distr. cbn [flat_map]. rewrite app_nil_r.
    destruct (entries_split g' H') as (ps' & p' & E' & F'). rewrite F', rev_app_distr. cbn [rev app back].
    destruct (0 <? snd (p', - snd g')) eqn:X; [apply Z.ltb_lt in X; cbn in X; lia|reflexivity]. }
  induction ps as [|q ps IH] using rev_ind; [exact B|].
  rewrite map_app, rev_app_distr. cbn [map rev app back snd].
  destruct (0 <? snd g) eqn:X; [exact IH|apply Z.ltb_ge in X; lia].
Qed.

Lemma iter_back gs hs : Forall proper gs -> Forall proper hs ->
  Nat.iter (length hs) back_step (rev (flat_map entries (gs ++ hs))) = rev (flat_map entries gs).
Proof.
  revert gs. induction hs as [|h hs IH]; intros gs Hg Hh; [cbn; now rewrite app_nil_r|].
  inversion Hh; subst. cbn [length].
  change (Nat.iter (S (length hs)) back_step ?l) with (back_step (Nat.iter (length hs) back_step l)).
  replace (gs ++ h :: hs) with ((gs ++ [h]) ++ hs) by now rewrite <- app_assoc.
  rewrite IH; [apply back_rev_entries; assumption| |assumption].
  apply Forall_app; split; [assumption|now constructor].
Qed.

(* the numbers of groups *)
Lemma negatives_entries g : proper g -> negatives (map snd (entries g)) = [- snd g].
Proof.
  intros [H S]. destruct (entries_split g H) as (ps & p & E & F). rewrite F, map_app, map_map. cbn.
  unfold negatives. rewrite filter_app. cbn.
  destruct (- snd g <? 0) eqn:X; [|apply Z.ltb_ge in X; lia].
  replace (filter _ (map (fun _ => snd g) ps)) with (@nil Z); [reflexivity|].
  clear - S. induction ps; cbn; [reflexivity|]. destruct (snd g <? 0) eqn:X; [apply Z.ltb_lt in X; lia|exact IHps].
Qed.

Lemma negatives_flat gs : Forall proper gs ->
  negatives (map snd (flat_map entries gs)) = map (fun g => - snd g) gs.
Proof.
  intros H. induction H as [|g gs Hg H IH]; [reflexivity|].
  cbn [flat_map map]. rewrite map_app. unfold negatives in *. rewrite filter_app, IH.
  fold (negatives (map snd (entries g))). rewrite negatives_entries by assumption. reflexivity.
Qed.

Lemma leading_app a b : Forall (fun x => x < 0) a -> leading (a ++ b) = (length a + leading b)%nat.
Proof.
  intros H. induction H; cbn; [reflexivity|]. destruct (x <? 0) eqn:E; [now rewrite IHForall|apply Z.ltb_ge in E; lia].
Qed.

Lemma leading_lt a b : ~ Forall (fun x => x < 0) a -> (leading (a ++ b) < length a)%nat.
Proof.
  induction a as [|x a IH]; intros H; [exfalso; apply H; constructor|].
  cbn. destruct (x <? 0) eqn:E; [|lia]. apply Z.ltb_lt in E.
  apply -> Nat.succ_lt_mono. apply IH. intros F. apply H. now constructor.
Qed.

Lemma firstn_negatives g l k : proper g -> (k < length (fst g))%nat ->
  negatives (firstn k (map snd (entries g ++ l))) = [].
Proof.
  intros [H S] L. destruct (entries_split g H) as (ps & p & E & F). rewrite F. rewrite E, app_length in L. cbn in L.
  rewrite !map_app, map_map, <- app_assoc. cbn [map snd].
  rewrite firstn_app. rewrite map_length. replace (k - length ps)%nat with 0%nat by lia. cbn [firstn]. rewrite app_nil_r.
  clear - S. revert k. induction ps; intros [|k]; cbn; try reflexivity.
  destruct (snd g <? 0) eqn:X; [apply Z.ltb_lt in X; lia|]. apply IHps.
Qed.

Lemma ports_flat gs : Forall proper gs -> map fst (flat_map entries gs) = flat_map fst gs.
Proof.
  intros H. induction H as [|g gs Hg H IH]; [reflexivity|]. cbn. rewrite map_app, IH, entries_ports; [reflexivity|apply Hg].
Qed.

Lemma length_flat gs : Forall proper gs -> length (flat_map entries gs) = length (flat_map fst gs).
Proof. intros H. rewrite <- (ports_flat gs H), map_length. reflexivity. Qed.

Section Layout.
  Context (down mid up : list (list Z * Z)) (n : Z).
  Let gs := down ++ mid ++ up.
  Hypothesis Hd : Forall proper down.
  Hypothesis Hm : Forall proper mid.
  Hypothesis Hu : Forall proper up.
  Hypothesis Dneg : Forall (fun g => Forall (fun p => p < 0) (fst g)) down.
  Hypothesis Turn : match mid ++ up with [] => True | g :: _ => ~ Forall (fun p => p < 0) (fst g) end.
  Hypothesis Sym : size_product up = size_product down.

  Let P := layout gs n.

  Lemma gs_proper : Forall proper gs.
  Proof. unfold gs. rewrite !Forall_app. auto. Qed.

  Lemma down_groups :
    negatives (firstn (leading (p_ports P)) (p_groups P)) = map (fun g => - snd g) down.
  Proof using Hd Hm Hu Dneg Turn.
    unfold P, layout. cbn [p_ports p_groups]. rewrite ports_flat by apply gs_proper.
    unfold gs at 1. rewrite flat_map_app, leading_app.
    2: { clear - Dneg. induction Dneg; cbn; [constructor|]. apply Forall_app; auto. }
    unfold gs. rewrite (flat_map_app entries down), map_app, firstn_app.
    rewrite firstn_all2 by (rewrite map_length, length_flat by assumption; lia).
    unfold negatives. rewrite filter_app. fold (negatives (map snd (flat_map entries down))).
    rewrite negatives_flat by assumption.
    rewrite map_length, length_flat by assumption.
    replace (length (flat_map fst down) + leading (flat_map fst (mid ++ up)) - length (flat_map fst down))%nat
      with (leading (flat_map fst (mid ++ up))) by lia.
    assert (HF : Forall proper (mid ++ up)) by (apply Forall_app; auto).
    destruct (mid ++ up) as [|g r]; [now rewrite firstn_nil, app_nil_r|].
    inversion HF; subst. cbn [flat_map].
    fold (negatives (firstn (leading (fst g ++ flat_map fst r)) (map snd (entries g ++ flat_map entries r)))).
    rewrite firstn_negatives; [apply app_nil_r|assumption|]. now apply leading_lt.
  Qed.

  Lemma down_count : groups_down P = length down.
  Proof using Hd Hm Hu Dneg Turn. unfold groups_down. rewrite down_groups. apply map_length. Qed.

  Lemma up_count_positive fac l l' : Forall (fun x => 0 <= x) l -> up_count fac (l ++ l') = up_count fac l'.
  Proof using.
    intros H. induction H; cbn; [reflexivity|]. destruct (x <? 0) eqn:E; [apply Z.ltb_lt in E; lia|exact IHForall].
  Qed.
  Lemma up_count_rev gs' g fac : proper g ->
    up_count fac (rev (map snd (flat_map entries (gs' ++ [g])))) =
    if 1 <=? Z.quot fac (snd g) then S (up_count (Z.quot fac (snd g)) (rev (map snd (flat_map entries gs')))) else 0%nat.
  Proof using.
    intros [H S]. rewrite flat_map_app, map_app, rev_app_distr. cbn [flat_map]. rewrite app_nil_r.
    destruct (entries_split g H) as (ps & p & E & F). rewrite F, map_app, rev_app_distr. cbn [map rev app].
    cbn [up_count snd]. destruct (- snd g <? 0) eqn:X; [|apply Z.ltb_ge in X; lia].
    replace (Z.abs (- snd g)) with (snd g) by lia.
    destruct (1 <=? Z.quot fac (snd g)); [|reflexivity].
    rewrite up_count_positive; [reflexivity|]. rewrite map_map. apply Forall_rev.
    cbn. clear - S. induction ps; constructor; [lia|assumption].
  Qed.
  Lemma up_count_all a b : Forall proper a -> Forall proper b ->
    up_count (size_product b) (rev (map snd (flat_map entries (a ++ b)))) = length b.
  Proof using.
    intros Ha. induction b as [|g b IH] using rev_ind; intros Hb.
    - rewrite app_nil_r. destruct a as [|g a' _] using rev_ind; [reflexivity|].
      apply Forall_app in Ha as [Ha Hg]. inversion Hg as [|? ? G _]; subst. rewrite up_count_rev by assumption.
      destruct G as [_ G]. cbn. rewrite Z.quot_small by lia. reflexivity.
    - apply Forall_app in Hb as [Hb Hg]. inversion Hg as [|? ? G _]; subst.
      rewrite app_assoc, up_count_rev by assumption. unfold size_product. rewrite map_app, fold_right_app. cbn.
      destruct G as [_ G].
      assert (Q : fold_right Z.mul (snd g * 1) (map snd b) = size_product b * snd g).
      { clear. unfold size_product. induction (map snd b) as [|z l IHl]; cbn [fold_right]; [ring|]. rewrite IHl. ring. }
      rewrite Q, Z.quot_mul by lia.
      assert (0 < size_product b).
      { clear - Hb. unfold size_product. induction Hb as [|x l [_ X] _ IHl]; cbn; [lia|]. apply Z.mul_pos_pos; [lia|assumption]. }
      destruct (1 <=? size_product b) eqn:X; [|apply Z.leb_gt in X; lia].
      rewrite IH by assumption. rewrite app_length. cbn. lia.
  Qed.

  Lemma up_count_eq : groups_up P = length up.
  Proof using Hd Hm Hu Dneg Turn Sym.
    unfold groups_up. rewrite down_groups.
    replace (fold_right Z.mul 1 (map Z.abs (map (fun g : list Z * Z => - snd g) down))) with (size_product up).
    - unfold P, layout. cbn [p_groups]. unfold gs. rewrite app_assoc. apply up_count_all; [apply Forall_app; auto|assumption].
    - rewrite Sym. clear - Hd. unfold size_product. induction Hd as [|g l [_ G] _ IH]; cbn [map fold_right]; [reflexivity|].
      rewrite IH by now inversion Hd. replace (Z.abs (- snd g)) with (snd g) by lia. reflexivity.
  Qed.

  Lemma middle_count : groups_middle P = Z.of_nat (length mid).
  Proof using Hd Hm Hu Dneg Turn Sym.
    unfold groups_middle. rewrite down_count, up_count_eq. unfold P, layout. cbn [p_groups].
    rewrite negatives_flat by apply gs_proper. rewrite map_length. unfold gs. rewrite !app_length. lia.
  Qed.

  Lemma ports_nonempty : gs <> [] -> p_ports P <> [].
  Proof using Hd Hm Hu.
    intros H. unfold P, layout. cbn. rewrite ports_flat by apply gs_proper.
    pose proof gs_proper as G. destruct gs as [|g r]; [contradiction|]. inversion G as [|? ? [X _] _]; subst.
    cbn. destruct (fst g); [contradiction|discriminate].
  Qed.

  Lemma split_nth (l : list (list Z * Z)) k g : nth_error l k = Some g ->
    l = firstn k l ++ g :: skipn (S k) l.
  Proof using.
    revert k. induction l as [|x l IH]; intros [|k] H; try discriminate; cbn in *.
    - now injection H as ->.
    - f_equal. apply IH, H.
  Qed.
  Lemma Forall_skip_nth (l : list (list Z * Z)) k g : Forall proper l -> nth_error l k = Some g ->
    Forall proper (firstn k l) /\ proper g /\ Forall proper (skipn (S k) l).
  Proof using.
    intros H E. rewrite (split_nth _ _ _ E) in H. apply Forall_app in H as [H1 H2]. inversion H2; subst. auto.
  Qed.

  (* the groups before the middle, counted from the middle *)
  Lemma select_down i g : (0 < i)%nat -> nth_error (rev down) (i - 1) = Some g ->
    ports_group P (- Z.of_nat i) = Some (entries g).
  Proof using Hd Hm Hu Dneg Turn Sym.
    intros Hi E.
    assert (L : (i <= length down)%nat).
    { apply Nat.nlt_ge. intros X. assert (nth_error (rev down) (i - 1) = None) by (apply nth_error_None; rewrite rev_length; lia). congruence. }
    assert (E' : nth_error down (length down - i) = Some g).
    { rewrite <- E. rewrite <- (rev_involutive down) at 1. rewrite <- (rev_length down).
      clear - L Hi. rewrite <- rev_length in L. revert L. generalize (rev down). intros l L.
      assert (X : forall (a : list (list Z * Z)) k, (k < length a)%nat -> nth_error (rev a) (length a - S k) = nth_error a k).
      { clear. intros a k Hk. rewrite (nth_error_nth' (rev a) ([], 0)) by (rewrite rev_length; lia).
        rewrite rev_nth by lia. rewrite (nth_error_nth' a ([], 0)) by lia. f_equal. f_equal. lia. }
      replace (length l - i)%nat with (length l - S (i - 1))%nat by lia. apply X. lia. }
    assert (NE : gs <> []) by (unfold gs; destruct down; [cbn in L; lia|discriminate]).
    unfold ports_group. pose proof (ports_nonempty NE) as PN. destruct (p_ports P) eqn:PP; [contradiction|]. rewrite <- PP.
    destruct (- Z.of_nat i =? 0) eqn:X0; [apply Z.eqb_eq in X0; lia|].
    destruct (- Z.of_nat i <? 0) eqn:X1; [|apply Z.ltb_ge in X1; lia].
    rewrite down_count. destruct (Z.of_nat (length down) <? - - Z.of_nat i) eqn:X2; [apply Z.ltb_lt in X2; lia|].
    f_equal. replace (Z.to_nat (- - Z.of_nat i)) with i by lia.
    unfold P. rewrite layout_entries. unfold gs. rewrite flat_map_app.
    rewrite (split_nth _ _ _ E') at 2. rewrite flat_map_app. cbn [flat_map].
    destruct (Forall_skip_nth _ _ _ Hd E') as (F1 & F2 & F3).
    rewrite <- !app_assoc.
    pose proof (fun l => iter_skip (firstn (length down - i) down) l F1) as IS.
    rewrite firstn_length, Nat.min_l in IS by lia. rewrite IS. now apply one_group_entries.
  Qed.

  Lemma select_middle g r : mid = g :: r -> ports_group P 0 = Some (entries g).
  Proof using Hd Hm Hu Dneg Turn Sym.
    intros E. assert (NE : gs <> []) by (unfold gs; rewrite E; destruct down; discriminate).
    unfold ports_group. pose proof (ports_nonempty NE) as PN. destruct (p_ports P) eqn:PP; [contradiction|]. rewrite <- PP.
    cbn [Z.eqb]. rewrite middle_count. rewrite E at 1. cbn [length].
    destruct (Z.of_nat (S (length r)) <=? 0) eqn:X; [apply Z.leb_le in X; lia|].
    f_equal. rewrite down_count. unfold P. rewrite layout_entries. unfold gs. rewrite flat_map_app, iter_skip by assumption.
    rewrite E, flat_map_app. cbn [flat_map]. rewrite <- app_assoc. apply one_group_entries.
    rewrite E in Hm. now inversion Hm.
  Qed.

  Lemma select_up i g : (0 < i)%nat -> nth_error up (i - 1) = Some g ->
    ports_group P (Z.of_nat i) = Some (entries g).
  Proof using Hd Hm Hu Dneg Turn Sym.
    intros Hi E.
    assert (L : (i - 1 < length up)%nat) by (apply nth_error_Some; congruence).
    assert (NE : gs <> []) by (unfold gs; destruct up; [cbn in L; lia|destruct down, mid; discriminate]).
    unfold ports_group. pose proof (ports_nonempty NE) as PN. destruct (p_ports P) eqn:PP; [contradiction|]. rewrite <- PP.
    destruct (Z.of_nat i =? 0) eqn:X0; [apply Z.eqb_eq in X0; lia|].
    destruct (Z.of_nat i <? 0) eqn:X1; [apply Z.ltb_lt in X1; lia|].
    rewrite up_count_eq. destruct (Z.of_nat (length up) <? Z.of_nat i) eqn:X2; [apply Z.ltb_lt in X2; lia|].
    f_equal. rewrite Nat2Z.id. unfold P. rewrite layout_entries.
    pose proof (split_nth _ _ _ E) as SP. destruct (Forall_skip_nth _ _ _ Hu E) as (F1 & F2 & F3).
    assert (G : gs = (down ++ mid ++ firstn (i - 1) up) ++ (g :: skipn (S (i - 1)) up)).
    { unfold gs. rewrite SP at 1. rewrite <- !app_assoc. reflexivity. }
    rewrite G.
    replace (length up - i + 1)%nat with (length (g :: skipn (S (i - 1)) up)) by (cbn [length]; rewrite skipn_length; lia).
    rewrite iter_back; [|rewrite !Forall_app; auto|now constructor].
    rewrite rev_length, (flat_map_app entries (down ++ mid ++ firstn (i - 1) up)).
    rewrite skipn_app, skipn_all2 by lia. rewrite Nat.sub_diag. cbn [skipn app flat_map].
    now apply one_group_entries.
  Qed.
End Layout.
