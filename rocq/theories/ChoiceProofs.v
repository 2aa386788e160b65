(* Proofs about the choice of ports. *)
From Verif Require Import Base FactorsModel FactorsSpec FactorsProofs ChoiceModel ChoiceSpec PortsModel PortsSpec PortsProofs.
From Verif Require Import SchedModel RecursiveModel RecursiveSpec CyclicModel CycRedModel.
From Verif Require CyclicSpec.
From Coq Require Import Sorted.
Local Ltac Zify.zify_post_hook ::= idtac.

(* ---------- cancelled lists ---------- *)
Lemma cancel_true : forall f l, fst (fold_left cancel_step f (true, l)) = true.
Proof.
  induction f as [|x f IH]; intros l; [reflexivity|]. cbn [fold_left]. unfold cancel_step at 2. cbn [fst snd].
  destruct (_ && _); [apply IH|]. destruct (0 <? x)%Z; apply IH.
Qed.
Local Notation pos := (filter (fun x => (0 <? x)%Z)).
Local Notation nonincr := (fun a b => (b <= a)%Z).
Lemma cancel_some : forall f l, fst (fold_left cancel_step f (false, Some l)) = false <-> Sorted nonincr (l :: pos f).
Proof.
  induction f as [|x f IH]; intros l; cbn [fold_left filter].
  - split; intros; [repeat constructor|reflexivity].
  - unfold cancel_step at 2. cbn [fst snd]. destruct (0 <? x)%Z eqn:E; cbn [andb]; [|apply IH].
    destruct (x <=? l)%Z eqn:E1.
    + rewrite IH. apply Z.leb_le in E1. split; intros H.
      * constructor; [exact H|]. constructor. exact E1.
      * now inversion H.
    + rewrite cancel_true. apply Z.leb_gt in E1. split; [discriminate|]. intros H. inversion H as [|? ? _ H1]; subst.
      inversion H1; subst. lia.
Qed.
Lemma cancelled_ordered : forall f, cancelled f = false <-> ordered f.
Proof.
  unfold cancelled, ordered. induction f as [|x f IH]; [split; intros; [constructor|reflexivity]|].
  cbn [fold_left filter]. unfold cancel_step at 2. cbn [fst snd].
  destruct (0 <? x)%Z; cbn [andb]; [apply cancel_some|exact IH].
Qed.
Lemma cancel_in : forall fs f, In f (cancel_factors fs) <-> In f fs /\ ordered f.
Proof.
  intros fs f. unfold cancel_factors. rewrite filter_In. rewrite <- cancelled_ordered.
  now destruct (cancelled f).
Qed.

(* ---------- the cheapest list ---------- *)
Section Cost.
  Variable T : list Z -> Z.
  (* [all] are the lists, [fs] those not yet seen *)
  Lemma min_cost_some : forall fs seen best at_ limit,
    let all := seen ++ fs in
    (best <= limit)%Z ->
    (forall g, In g seen -> best <= T g)%Z ->
    match at_ with
    | Some i => i < length seen /\ T (nth i all []) = best /\ (best < limit)%Z
    | None => best = limit
    end ->
    match min_cost T best at_ (length seen) fs with
    | Some i => cheapest T limit all (nth i all [])
    | None => forall g, In g all -> (limit <= T g)%Z
    end.
  Proof.
    induction fs as [|f fs IH]; intros seen best at_ limit all Hb Hs Ha; cbn [min_cost].
    - subst all. rewrite app_nil_r in *. destruct at_ as [i|].
      + destruct Ha as (L & E & H). split; [now apply nth_In|]. split; [lia|]. intros g I. rewrite E. now apply Hs.
      + intros g I. rewrite <- Ha. now apply Hs.
    - assert (A : all = (seen ++ [f]) ++ fs) by (unfold all; now rewrite <- app_assoc).
      replace (S (length seen)) with (length (seen ++ [f])) by (rewrite app_length; cbn; lia).
      destruct (T f <? best)%Z eqn:E.
      + apply Z.ltb_lt in E. rewrite A. apply IH.
        * lia.
        * intros g I. apply in_app_iff in I. destruct I as [I|[<-|[]]]; [specialize (Hs g I); lia|lia].
        * rewrite app_length. cbn. split; [lia|]. rewrite <- A. unfold all. rewrite nth_middle. split; [reflexivity|lia].
      + apply Z.ltb_ge in E. rewrite A. apply IH.
        * lia.
        * intros g I. apply in_app_iff in I. destruct I as [I|[<-|[]]]; [now apply Hs|lia].
        * destruct at_ as [i|]; [|exact Ha]. rewrite <- A. rewrite app_length. cbn. destruct Ha as (L & B & C).
          split; [lia|]. now split.
  Qed.
  Lemma min_cost_ok : forall fs limit,
    match min_cost T limit None 0 fs with
    | Some i => cheapest T limit fs (nth i fs [])
    | None => forall g, In g fs -> (limit <= T g)%Z
    end.
  Proof. intros fs limit. apply (min_cost_some fs [] limit None limit); [lia| |reflexivity]. intros g []. Qed.
End Cost.

(* ---------- there is something to choose ---------- *)
Lemma prod_twos : forall k, prod (repeat 2%Z k) = (2 ^ Z.of_nat k)%Z.
Proof.
  induction k as [|k IH]; [reflexivity|]. cbn [repeat prod fold_right]. fold (prod (repeat 2%Z k)). rewrite IH.
  rewrite Nat2Z.inj_succ, Z.pow_succ_r by lia. reflexivity.
Qed.
Lemma twos_minimal : forall n, (2 <= n)%Z -> minimal n (repeat 2%Z (Z.to_nat (Z.log2_up n))).
Proof.
  intros n Hn. assert (L := Z.log2_up_spec n ltac:(lia)).
  assert (P := Z.log2_up_pos n ltac:(lia)). set (k := Z.log2_up n) in *.
  exists (repeat 2%Z (Z.to_nat (k - 1))), 2%Z.
  assert (E : Z.to_nat k = Z.to_nat (k - 1) + 1) by lia.
  assert (R : repeat 2%Z (Z.to_nat k) = repeat 2%Z (Z.to_nat (k - 1)) ++ [2%Z]).
  { rewrite E, repeat_app. reflexivity. }
  split; [exact R|]. rewrite !prod_twos, !Z2Nat.id by lia. rewrite <- Z.sub_1_r in L.
  split; [lia|]. split; [lia|]. intros x I. apply repeat_spec in I. subst x. unfold FACTOR_MAX. lia.
Qed.
Lemma twos_sorted : forall k, Sorted nonincr (repeat 2%Z k).
Proof.
  induction k as [|k IH]; [constructor|]. cbn [repeat]. constructor; [exact IH|]. destruct k; cbn [repeat]; constructor. lia.
Qed.
Lemma pos_all : forall p, (forall x, In x p -> 2 <= x)%Z -> pos p = p.
Proof.
  induction p as [|x p IH]; intros H; [reflexivity|]. cbn [filter].
  rewrite (proj2 (Z.ltb_lt 0 x)) by (specialize (H x (or_introl eq_refl)); lia). f_equal. apply IH. intros y I. apply H. now right.
Qed.
Lemma pos_variant : forall p l, (forall x, In x p -> 2 <= x)%Z -> pos (map Z.opp (firstn l (rev p)) ++ p) = p.
Proof.
  intros p l H. rewrite filter_app, (pos_all p H).
  assert (E : forall q, (forall x, In x q -> In x p) -> pos (map Z.opp q) = []).
  { induction q as [|x q IH]; intros Hq; [reflexivity|]. cbn [map filter].
    assert (Hx := H x (Hq x (or_introl eq_refl))). rewrite (proj2 (Z.ltb_ge 0 (- x))) by lia. apply IH. intros y I. apply Hq. now right. }
  rewrite E; [reflexivity|]. intros x I. apply in_rev. rewrite <- (firstn_skipn l (rev p)). apply in_or_app. now left.
Qed.

Definition from_minimal (n : Z) (ag : bool) (f p : list Z) (l : nat) : Prop :=
  minimal n p /\ (l <= if ag then 0 else length p)%nat /\ f = map Z.opp (firstn l (rev p)) ++ p.
Lemma options_exact : forall ag n f, (2 <= n)%Z ->
  (In f (cancel_factors (factor_lists ag n)) <-> ordered f /\ exists p l, from_minimal n ag f p l).
Proof. intros ag n f Hn. rewrite cancel_in, (lists_exact ag n f Hn). unfold from_minimal. tauto. Qed.
Lemma options_nonempty : forall ag n, (2 <= n)%Z -> exists f, In f (cancel_factors (factor_lists ag n)).
Proof.
  intros ag n Hn. exists (repeat 2%Z (Z.to_nat (Z.log2_up n))). apply options_exact; [exact Hn|]. split.
  - unfold ordered. rewrite pos_all; [apply twos_sorted|]. intros x I. apply repeat_spec in I. lia.
  - exists (repeat 2%Z (Z.to_nat (Z.log2_up n))), 0. split; [now apply twos_minimal|]. split; [lia|reflexivity].
Qed.

(* ---------- the choice ---------- *)
Lemma choose_total : forall T limit ag n, (2 <= n)%Z ->
  (exists f, In f (cancel_factors (factor_lists ag n)) /\ (T f < limit)%Z) -> choose T limit ag n <> None.
Proof.
  intros T limit ag n Hn (f & I & Hf). unfold choose.
  assert (M := min_cost_ok T (cancel_factors (factor_lists ag n)) limit).
  destruct (min_cost T limit None 0 _) as [i|]; [discriminate|]. specialize (M f I). lia.
Qed.
Lemma choose_some : forall T limit ag n ports groups, choose T limit ag n = Some (ports, groups) ->
  exists f, cheapest T limit (cancel_factors (factor_lists ag n)) f /\ ports = ports_of_factors f /\ groups = groups_of_factors n f.
Proof.
  intros T limit ag n ports groups H. unfold choose in H.
  assert (M := min_cost_ok T (cancel_factors (factor_lists ag n)) limit).
  destruct (min_cost T limit None 0 _) as [i|]; [|discriminate]. injection H as <- <-. eexists. split; [exact M|]. now split.
Qed.

(* ---------- ports of a minimal list ---------- *)
Local Notation size := (fun p : Z => Z.to_nat (Z.abs p)).
Lemma port_of_pos : forall x, (2 <= x)%Z -> port_of x = (x - 1)%Z.
Proof. intros x H. unfold port_of. now rewrite (proj2 (Z.ltb_lt 0 x)) by lia. Qed.
Lemma port_of_opp : forall x, (2 <= x)%Z -> port_of (- x) = (- (x - 1))%Z.
Proof. intros x H. unfold port_of. rewrite (proj2 (Z.ltb_ge 0 (- x))) by lia. lia. Qed.
Lemma ports_pos : forall p, (forall x, In x p -> 2 <= x)%Z -> ports_of_factors p = map (fun x => (x - 1)%Z) p.
Proof. intros p H. apply map_ext_in. intros x I. apply port_of_pos. now apply H. Qed.
Lemma ports_neg : forall p, (forall x, In x p -> 2 <= x)%Z -> ports_of_factors (map Z.opp p) = map Z.opp (ports_of_factors p).
Proof.
  intros p H. unfold ports_of_factors. rewrite !map_map. apply map_ext_in. intros x I.
  rewrite port_of_opp, port_of_pos by (now apply H). reflexivity.
Qed.
Lemma minimal_ge2 : forall n p, minimal n p -> forall x, In x p -> (2 <= x)%Z.
Proof. intros n p (q & d & _ & _ & _ & H) x I. specialize (H x I). lia. Qed.
Lemma minimal_nonempty : forall n p, minimal n p -> p <> [].
Proof. intros n p (q & d & -> & _). now destruct q. Qed.
Lemma ports_positive : forall p, (forall x, In x p -> 2 <= x)%Z -> positive (ports_of_factors p).
Proof. intros p H. rewrite ports_pos by exact H. apply Forall_map, Forall_forall. intros x I. specialize (H x I). lia. Qed.
Lemma ports_negative : forall p, (forall x, In x p -> 2 <= x)%Z -> negative (map Z.opp (ports_of_factors p)).
Proof.
  intros p H. apply Forall_map. eapply Forall_impl; [|exact (ports_positive p H)]. intros x Hx. cbv beta in *. lia.
Qed.
Lemma ports_prod : forall p, (forall x, In x p -> 2 <= x)%Z ->
  Z.of_nat (node_count (ports_of_factors p)) = prod p.
Proof.
  induction p as [|x p IH]; intros H; [reflexivity|]. cbn [ports_of_factors map node_count prod fold_right].
  fold (ports_of_factors p) (node_count (ports_of_factors p)) (prod p).
  rewrite Nat2Z.inj_mul, IH by (intros y I; apply H; now right). rewrite port_of_pos by (apply H; now left).
  assert (2 <= x)%Z by (apply H; now left). f_equal. lia.
Qed.
Lemma node_count_app : forall a b, node_count (a ++ b) = node_count a * node_count b.
Proof.
  induction a as [|x a IH]; intros b; [symmetry; apply Nat.mul_1_l|]. cbn [app node_count fold_right].
  fold (node_count (a ++ b)) (node_count a). rewrite IH. apply Nat.mul_assoc.
Qed.
Lemma node_count_rev : forall a, node_count (rev a) = node_count a.
Proof.
  induction a as [|x a IH]; [reflexivity|]. cbn [rev]. rewrite node_count_app, IH. cbn [node_count fold_right]. fold (node_count a).
  rewrite Nat.mul_1_r. apply Nat.mul_comm.
Qed.
Lemma node_count_opp : forall a, node_count (map Z.opp a) = node_count a.
Proof.
  induction a as [|x a IH]; [reflexivity|]. cbn [map node_count fold_right]. fold (node_count (map Z.opp a)) (node_count a).
  now rewrite IH, Z.abs_opp.
Qed.
Lemma node_count_spread : forall a, CyclicSpec.spread (sizes a) = node_count a.
Proof.
  induction a as [|x a IH]; [reflexivity|]. cbn [sizes map CyclicSpec.spread node_count fold_right].
  fold (sizes a) (CyclicSpec.spread (sizes a)) (node_count a). now rewrite IH.
Qed.

(* group_size *)
Lemma gs_fold_neg : forall a g, negative a ->
  fold_left (fun g p => if (0 <? p)%Z then (g * (Z.abs p + 1))%Z else g) a g = g.
Proof.
  induction a as [|x a IH]; intros g H; [reflexivity|]. inversion H; subst. cbn [fold_left].
  rewrite (proj2 (Z.ltb_ge 0 x)) by lia. now apply IH.
Qed.
Lemma gs_fold_pos : forall a g, positive a ->
  fold_left (fun g p => if (0 <? p)%Z then (g * (Z.abs p + 1))%Z else g) a g = (g * Z.of_nat (node_count a))%Z.
Proof.
  induction a as [|x a IH]; intros g H; [cbn; lia|]. inversion H; subst. cbn [fold_left node_count fold_right].
  fold (node_count a). rewrite (proj2 (Z.ltb_lt 0 x)) by lia. rewrite IH by assumption. rewrite Nat2Z.inj_mul. rewrite <- Z.mul_assoc.
  f_equal. f_equal. lia.
Qed.
Lemma group_size_eq : forall a b n, negative a -> positive b -> (0 < n)%Z ->
  group_size (a ++ b) = n -> Z.of_nat (node_count b) = n.
Proof.
  intros a b n Ha Hb Hn. unfold group_size. rewrite fold_left_app, (gs_fold_neg a), (gs_fold_pos b) by assumption.
  destruct (a ++ b) as [|? [|? ?]]; lia.
Qed.

(* the parts of a list of ports *)
Lemma negatives_app : forall a b, negative a -> positive b -> negatives (a ++ b) = a /\ after_negatives (a ++ b) = b.
Proof.
  induction a as [|x a IH]; intros b Ha Hb.
  - destruct b as [|y b]; [now split|]. inversion Hb; subst. cbn [app negatives after_negatives].
    now rewrite (proj2 (Z.ltb_ge y 0)) by lia.
  - inversion Ha; subst. cbn [app negatives after_negatives]. rewrite (proj2 (Z.ltb_lt x 0)) by lia.
    destruct (IH b) as [-> ->]; auto.
Qed.

(* what is needed for the schedules *)
Lemma ports_cyclic_minimal : forall N p, minimal (Z.of_nat N) p -> CyclicSpec.minimal N (sizes (ports_of_factors p)).
Proof.
  intros N p M. assert (G := minimal_ge2 _ _ M). split.
  - apply Forall_map. eapply Forall_impl; [|exact (ports_positive p G)]. intros x Hx. cbv beta in *. lia.
  - right. destruct M as (q & d & -> & [A B] & C & D).
    assert (Gq : forall x, In x q -> (2 <= x)%Z) by (intros x I; apply G, in_or_app; now left).
    assert (Gd : (2 <= d)%Z) by (apply G, in_or_app; right; now left).
    exists (sizes (ports_of_factors q)), (Z.to_nat (d - 1)).
    unfold sizes, ports_of_factors. rewrite !map_app. cbn [map]. rewrite (port_of_pos d Gd).
    rewrite (Z.abs_eq (d - 1)) by lia. split; [reflexivity|].
    change (map (fun p => Z.to_nat (Z.abs p)) (map port_of q)) with (sizes (ports_of_factors q)).
    assert (E : CyclicSpec.spread (sizes (ports_of_factors q) ++ [Z.to_nat (d - 1)]) = node_count (ports_of_factors (q ++ [d]))).
    { rewrite <- node_count_spread. unfold sizes, ports_of_factors. rewrite !map_app. cbn [map]. rewrite (port_of_pos d Gd).
      now rewrite (Z.abs_eq (d - 1)) by lia. }
    rewrite E, node_count_spread. apply ports_prod in Gq. apply ports_prod in G. split.
    + apply Nat2Z.inj_lt. rewrite Nat2Z.inj_mul, Gq, Z2Nat.id by lia. exact C.
    + apply Nat2Z.inj_le. now rewrite G.
Qed.

Lemma variant_ports : forall n ag f p l, from_minimal n ag f p l ->
  ports_of_factors f = map Z.opp (ports_of_factors (firstn l (rev p))) ++ ports_of_factors p.
Proof.
  intros n ag f p l (M & Hl & ->). unfold ports_of_factors at 1. rewrite map_app. f_equal.
  apply (ports_neg (firstn l (rev p))). intros x I. apply (minimal_ge2 _ _ M). apply in_rev.
  rewrite <- (firstn_skipn l (rev p)). apply in_or_app. now left.
Qed.
Lemma variant_balanced : forall n ag f p l, from_minimal n ag f p l ->
  balanced (map Z.opp (ports_of_factors (firstn l (rev p))))
           (ports_of_factors (firstn (length p - l) p)) (ports_of_factors (skipn (length p - l) p)).
Proof.
  intros n ag f p l (M & Hl & ->). assert (G := minimal_ge2 _ _ M).
  assert (P := ports_positive p G).
  assert (S1 : ports_of_factors p = ports_of_factors (firstn (length p - l) p) ++ ports_of_factors (skipn (length p - l) p)).
  { unfold ports_of_factors. now rewrite <- map_app, firstn_skipn. }
  rewrite S1 in P. apply Forall_app in P. destruct P as [P1 P2].
  assert (R : firstn l (rev p) = rev (skipn (length p - l) p)) by apply firstn_rev.
  split; [|split; [exact P1|split; [exact P2|split]]].
  - apply ports_negative. intros x I. apply G. rewrite R in I. apply in_rev in I.
    rewrite <- (firstn_skipn (length p - l) p). apply in_or_app. now right.
  - rewrite node_count_opp, R. unfold ports_of_factors. now rewrite map_rev, node_count_rev.
  - assert (Hp := minimal_nonempty _ _ M). intros H. apply app_eq_nil in H. destruct H as [_ H].
    rewrite <- S1 in H. unfold ports_of_factors in H. apply map_eq_nil in H. contradiction.
Qed.

(* ---------- the groups ---------- *)
Lemma groups_one : forall n f, (0 < n)%Z -> ngroups (groups_of_factors n f) = 1.
Proof.
  intros n f Hn. unfold ngroups, groups_of_factors. rewrite filter_app, app_length. cbn [filter].
  rewrite (proj2 (Z.ltb_lt (- n) 0)) by lia. cbn [length].
  assert (E : forall k, length (filter (fun g => (g <? 0)%Z) (repeat n k)) = 0).
  { induction k as [|k IH]; [reflexivity|]. cbn [repeat filter]. now rewrite (proj2 (Z.ltb_ge n 0)) by lia. }
  now rewrite E.
Qed.
Lemma entries_repeat : forall g ps, ps <> [] -> entries_of g ps = repeat g (length ps - 1) ++ [(- g)%Z].
Proof.
  intros g. induction ps as [|p [|q ps] IH]; intros H; [contradiction|reflexivity|]. specialize (IH ltac:(discriminate)).
  change (entries_of g (p :: q :: ps)) with (g :: entries_of g (q :: ps)). rewrite IH. cbn [length]. rewrite !Nat.sub_succ, !Nat.sub_0_r.
  reflexivity.
Qed.
Lemma choice_round_trip : forall T limit ag n ports groups, (2 <= n)%Z -> choose T limit ag n = Some (ports, groups) ->
  exists t, print_ports_groups ports groups = Some t /\ scan_ports_groups t = Some (ports, groups).
Proof.
  intros T limit ag n ports groups Hn H. apply choose_some in H. destruct H as (f & C & -> & ->).
  destruct C as (I & _). apply options_exact in I; [|exact Hn]. destruct I as (_ & p & l & F).
  assert (V := variant_ports _ _ _ _ _ F). destruct F as (M & Hl & E).
  assert (NE : ports_of_factors f <> []).
  { intros H. rewrite V in H. apply app_eq_nil in H. destruct H as [_ H]. apply map_eq_nil in H. exact (minimal_nonempty _ _ M H). }
  destruct (ports_round_trip [Group n (ports_of_factors f)] ltac:(discriminate)) as (t & A & B).
  { constructor; [|constructor]. split; [cbn; lia|]. split; [exact NE|]. cbn [gports]. rewrite V.
    assert (G := minimal_ge2 _ _ M). apply Forall_app. split.
    - eapply Forall_impl; [|apply ports_negative]; [intros x Hx; cbv beta in *; lia|].
      intros x I. apply G, in_rev. rewrite <- (firstn_skipn l (rev p)). apply in_or_app. now left.
    - eapply Forall_impl; [|exact (ports_positive p G)]. intros x Hx. cbv beta in *. lia. }
  exists t. unfold ports_of, groups_of in A, B. cbn [flat_map gports gsize] in A, B. rewrite !app_nil_r in A, B.
  rewrite entries_repeat in A, B by exact NE. unfold groups_of_factors. unfold ports_of_factors in A at 2, B at 2.
  rewrite map_length in A, B. now split.
Qed.
