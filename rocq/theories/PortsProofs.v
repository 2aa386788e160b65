From Verif Require Import Base TextModel TextProofs PortsModel PortsSpec.

Ltac nonum := apply no_num_intro; [reflexivity|let c := fresh in let H := fresh in intros c H;
  destruct c as [[] [] [] [] [] [] [] []]; try discriminate H; reflexivity].

Ltac apps := repeat first [rewrite <- app_assoc | progress (cbn [app])]; reflexivity.

Lemma nn_blank : no_num is_blank. Proof. nonum. Qed.
Lemma nn_sep1 : no_num sep1. Proof. nonum. Qed.
Lemma nn_open : no_num sep_open. Proof. nonum. Qed.
Lemma nn_close : no_num sep_close. Proof. nonum. Qed.
Lemma nn_semi : no_num (fun c => (c =? ";")%char). Proof. nonum. Qed.
Lemma nn_blank' : no_num (fun c => negb (negb (is_blank c))).
Proof. intros c Hc. rewrite negb_involutive. apply nn_blank, Hc. Qed.

Fixpoint tail (fs : list Z) : text :=
  match fs with [] => [] | f :: r => " "%char :: print_int f ++ tail r end.

Lemma flat_tail f fs :
  flat_map (fun f => print_int f ++ [" "%char]) (f :: fs) = (print_int f ++ tail fs) ++ [" "%char].
Proof.
  revert f. induction fs as [|f' fs IH]; intros f.
  - cbn. rewrite !app_nil_r. reflexivity.
  - change (flat_map (fun f => print_int f ++ [" "%char]) (f :: f' :: fs)) with
      ((print_int f ++ [" "%char]) ++ flat_map (fun f => print_int f ++ [" "%char]) (f' :: fs)).
    rewrite IH. cbn [tail]. apps.
Qed.

Lemma print_copyin_eq m fs : print_copyin m fs =
  match fs with [] => print_int m | f :: r => print_int m ++ ";"%char :: print_int f ++ tail r end.
Proof.
  unfold print_copyin. destruct fs as [|f fs].
  - cbn [flat_map]. rewrite app_nil_r. apply removelast_last.
  - rewrite flat_tail. change ([";"%char] ++ (print_int f ++ tail fs) ++ [" "%char]) with
      ((";"%char :: print_int f ++ tail fs) ++ [" "%char]). rewrite app_assoc. apply removelast_last.
Qed.

Lemma blank_first_print z s : blank_first (print_int z ++ s) = print_int z ++ blank_first s.
Proof.
  pose proof (print_int_chars z) as F. induction F as [|c r Hc F IH]; auto.
  cbn [app blank_first]. rewrite (nn_semi c Hc), IH. reflexivity.
Qed.

Lemma tail_no_digit fs : not_digit_head (tail fs).
Proof. destruct fs; cbn; auto. Qed.

Lemma scan_factors_tail fs : forall fuel z, length fs < fuel ->
  scan_factors fuel (print_int z ++ tail fs) = Some fs.
Proof.
  induction fs as [|f fs IH]; intros fuel z Hf.
  - destruct fuel; [cbn in Hf; lia|].
    destruct (print_int_cons z) as (c & r & E & _).
    cbn [tail]. cbn [scan_factors]. rewrite (skip_non _ z [] nn_blank'). cbn.
    rewrite app_nil_r, E. reflexivity.
  - destruct fuel; [cbn in Hf; lia|].
    destruct (print_int_cons z) as (c & r & E & _).
    cbn [scan_factors]. rewrite (skip_non _ z _ nn_blank').
    cbn [tail]. change (skip_while (fun c0 => negb (is_blank c0)) (" "%char :: print_int f ++ tail fs)) with
      (" "%char :: print_int f ++ tail fs).
    change (skip_while is_blank (" "%char :: print_int f ++ tail fs)) with
      (skip_while is_blank (print_int f ++ tail fs)).
    rewrite skip_print by apply nn_blank.
    rewrite E. cbn [app].
    destruct (print_int_cons f) as (c' & r' & E' & _).
    destruct (print_int f ++ tail fs) as [|a b] eqn:EX; [rewrite E' in EX; discriminate|].
    rewrite <- EX. rewrite scan_print_int by apply tail_no_digit.
    rewrite IH by (cbn in Hf; lia). reflexivity.
Qed.

Lemma tail_length fs : length fs <= length (tail fs).
Proof.
  induction fs as [|f fs IH]; cbn; auto. rewrite app_length. lia.
Qed.

Lemma copyin_round_trip m fs : scan_copyin (print_copyin m fs) = Some (m, fs).
Proof.
  rewrite print_copyin_eq. unfold scan_copyin.
  assert (E : blank_first match fs with [] => print_int m
      | f :: r => print_int m ++ ";"%char :: print_int f ++ tail r end = print_int m ++ tail fs).
  { destruct fs as [|f fs].
    - cbn [tail]. rewrite <- (app_nil_r (print_int m)) at 1. apply (blank_first_print m []).
    - rewrite blank_first_print. reflexivity. }
  rewrite E, scan_print_int by apply tail_no_digit.
  rewrite scan_factors_tail; auto. rewrite app_length.
  destruct (print_int_cons m) as (c & r & E' & _). rewrite E'. cbn.
  pose proof (tail_length fs). lia.
Qed.

(* ---- ports and groups ---- *)
Definition ports_text (ps : list Z) : text :=
  match ps with [] => [] | p :: r => print_int p ++ tail r end.
Definition block_text (b : group) : text :=
  print_int (gsize b) ++ "("%char :: ports_text (gports b) ++ [")"%char].

Lemma entries_length g ps : length (entries_of g ps) = length ps.
Proof. induction ps as [|p [|q ps] IH]; cbn in *; auto. Qed.

Lemma combine_app {A B} (a a' : list A) : forall (b b' : list B), length a = length b ->
  combine (a ++ a') (b ++ b') = combine a b ++ combine a' b'.
Proof.
  induction a as [|x a IH]; intros [|y b] b' H; cbn in *; try discriminate; auto. f_equal. auto.
Qed.

Lemma combine_cons {A B} (x : A) a (y : B) b : combine (x :: a) (y :: b) = (x, y) :: combine a b.
Proof. reflexivity. Qed.
Lemma print_loop_in p g r : print_loop true ((p, g) :: r) =
  if (0 <? g)%Z
  then let! t := print_loop true r in Some (print_int p ++ [" "%char] ++ t)
  else let! t := print_loop false r in Some (print_int p ++ [")"; " "]%char ++ t).
Proof. reflexivity. Qed.
Lemma print_loop_out p g r : print_loop false ((p, g) :: r) =
  if (g =? 0)%Z || (p =? 0)%Z then Some []
  else if (0 <? g)%Z
  then let! t := print_loop true r in Some ((print_int (Z.abs g) ++ ["("%char]) ++ print_int p ++ [" "%char] ++ t)
  else let! t := print_loop false r in Some ((print_int (Z.abs g) ++ ["("%char]) ++ print_int p ++ [")"; " "]%char ++ t).
Proof. reflexivity. Qed.

Lemma print_inside g rest t : (0 < g)%Z -> print_loop false rest = Some t ->
  forall ps, ps <> [] -> print_loop true (combine ps (entries_of g ps) ++ rest) =
    Some (ports_text ps ++ ")"%char :: " "%char :: t).
Proof.
  intros Hg Hr. induction ps as [|p ps IH]; intros Hne; [congruence|].
  destruct ps as [|q ps].
  - cbn [entries_of combine app print_loop].
    replace (0 <? - g)%Z with false by (symmetry; apply Z.ltb_ge; lia). rewrite Hr.
    cbn [ports_text tail]. rewrite app_nil_r. reflexivity.
  - change (entries_of g (p :: q :: ps)) with (g :: entries_of g (q :: ps)).
    rewrite combine_cons. cbn [app]. rewrite print_loop_in.
    replace (0 <? g)%Z with true by (symmetry; apply Z.ltb_lt; lia).
    rewrite IH by discriminate. cbn [ports_text tail]. apps.
Qed.

Lemma print_loop_blocks bs : Forall group_ok bs ->
  print_loop false (combine (ports_of bs) (groups_of bs)) =
  Some (flat_map (fun b => block_text b ++ [" "%char]) bs).
Proof.
  induction 1 as [|b bs (Hg & Hne & Hp) Hbs IH]; [reflexivity|].
  unfold ports_of, groups_of in *. cbn [flat_map].
  rewrite combine_app by (symmetry; apply entries_length).
  destruct (gports b) as [|p ps] eqn:Ep; [congruence|].
  inversion_clear Hp as [|? ? Hp0 Hps].
  assert (B : block_text b = print_int (gsize b) ++ "("%char :: ports_text (p :: ps) ++ [")"%char])
    by (unfold block_text; rewrite Ep; auto).
  rewrite B.
  destruct ps as [|q ps].
  - cbn [entries_of combine app print_loop].
    replace (- gsize b =? 0)%Z with false by (symmetry; apply Z.eqb_neq; lia).
    replace (p =? 0)%Z with false by (symmetry; apply Z.eqb_neq; auto). cbn [orb].
    replace (0 <? - gsize b)%Z with false by (symmetry; apply Z.ltb_ge; lia).
    rewrite IH. rewrite Z.abs_opp, Z.abs_eq by lia. cbn [ports_text tail].
    rewrite app_nil_r. apps.
  - change (entries_of (gsize b) (p :: q :: ps)) with (gsize b :: entries_of (gsize b) (q :: ps)).
    rewrite combine_cons. cbn [app]. rewrite print_loop_out.
    replace (gsize b =? 0)%Z with false by (symmetry; apply Z.eqb_neq; lia).
    replace (p =? 0)%Z with false by (symmetry; apply Z.eqb_neq; auto). cbn [orb].
    replace (0 <? gsize b)%Z with true by (symmetry; apply Z.ltb_lt; lia).
    rewrite (print_inside (gsize b) _ _ Hg IH) by discriminate.
    rewrite Z.abs_eq by lia. cbn [ports_text tail].
    apps.
Qed.

Fixpoint blocks_tail (bs : list group) : text :=
  match bs with [] => [] | b :: r => " "%char :: block_text b ++ blocks_tail r end.
Lemma flat_blocks b bs :
  flat_map (fun b => block_text b ++ [" "%char]) (b :: bs) = (block_text b ++ blocks_tail bs) ++ [" "%char].
Proof.
  revert b. induction bs as [|b' bs IH]; intros b.
  - cbn [flat_map blocks_tail]. rewrite !app_nil_r. reflexivity.
  - change (flat_map (fun b => block_text b ++ [" "%char]) (b :: b' :: bs)) with
      ((block_text b ++ [" "%char]) ++ flat_map (fun b => block_text b ++ [" "%char]) (b' :: bs)).
    rewrite IH. cbn [blocks_tail]. apps.
Qed.

Lemma print_blocks b bs : Forall group_ok (b :: bs) ->
  print_ports_groups (ports_of (b :: bs)) (groups_of (b :: bs)) = Some (block_text b ++ blocks_tail bs).
Proof.
  intros H. unfold print_ports_groups. rewrite print_loop_blocks by auto. rewrite flat_blocks.
  rewrite removelast_last. destruct ((block_text b ++ blocks_tail bs) ++ [" "%char]) eqn:E; auto.
  apply app_eq_nil in E. destruct E; discriminate.
Qed.

Lemma scan_group_ok ps r : ps <> [] -> forall fuel, length ps <= fuel ->
  scan_group fuel (ports_text ps ++ ")"%char :: r) = Some (ps, skip_while sep1 r).
Proof.
  induction ps as [|p ps IH]; intros Hne fuel Hf; [congruence|].
  destruct fuel as [|fuel]; [cbn in Hf; lia|]. cbn [scan_group ports_text].
  destruct ps as [|q ps].
  - cbn [tail]. rewrite app_nil_r. rewrite break_print by (auto; apply nn_close || reflexivity).
    rewrite scan_print_int_nil. reflexivity.
  - cbn [tail]. rewrite <- app_assoc. cbn [app].
    rewrite break_print by (auto; apply nn_close || reflexivity).
    rewrite scan_print_int_nil. change ((" " =? ")")%char) with false. cbv iota.
    change (skip_while sep1 ((print_int q ++ tail ps) ++ ")"%char :: r)) with
           (skip_while sep1 ((print_int q ++ tail ps) ++ ")"%char :: r)).
    rewrite <- app_assoc, skip_print by apply nn_sep1.
    change (print_int q ++ tail ps ++ ")"%char :: r) with (print_int q ++ (tail ps ++ ")"%char :: r)).
    rewrite app_assoc. change (print_int q ++ tail ps) with (ports_text (q :: ps)).
    rewrite IH by (try discriminate; cbn in *; lia). reflexivity.
Qed.

Lemma group_entries_eq g ps : ps <> [] -> group_entries g (length ps) = entries_of g ps.
Proof.
  unfold group_entries. induction ps as [|p ps IH]; intros Hne; [congruence|].
  destruct ps as [|q ps]; [reflexivity|].
  change (entries_of g (p :: q :: ps)) with (g :: entries_of g (q :: ps)).
  rewrite <- IH by discriminate. cbn [length]. rewrite !Nat.sub_succ, !Nat.sub_0_r. reflexivity.
Qed.

Lemma ports_text_length ps : ps <> [] -> length ps <= length (ports_text ps).
Proof.
  destruct ps as [|p ps]; [congruence|]. intros _. cbn [ports_text length]. rewrite app_length.
  destruct (print_int_cons p) as (c & r & E' & _). rewrite E'. cbn. pose proof (tail_length ps). lia.
Qed.

Lemma scan_loop_blocks bs : forall b fuel, Forall group_ok (b :: bs) -> length (b :: bs) <= fuel ->
  scan_loop fuel (block_text b ++ blocks_tail bs) = Some (ports_of (b :: bs), groups_of (b :: bs)).
Proof.
  induction bs as [|b' bs IH]; intros b fuel Hok Hf;
  (destruct fuel as [|fuel]; [cbn in Hf; lia|]);
  inversion_clear Hok as [|? ? (Hg & Hne & Hp) Hbs].
  - cbn [blocks_tail]. rewrite app_nil_r. unfold block_text.
    destruct (print_int_cons (gsize b)) as (c & r & E & _).
    cbn [scan_loop]. rewrite break_print by (auto; apply nn_open || reflexivity).
    rewrite scan_print_int_nil. rewrite E at 1. cbn [app].
    replace (skip_while sep_open (ports_text (gports b) ++ [")"%char])) with (ports_text (gports b) ++ [")"%char]).
    + rewrite scan_group_ok; auto.
      * cbn [skip_while]. destruct fuel; cbn [scan_loop]; rewrite group_entries_eq by auto;
        unfold ports_of, groups_of; cbn [flat_map]; reflexivity.
      * rewrite app_length. pose proof (ports_text_length (gports b) Hne). cbn. lia.
    + destruct (gports b) as [|p ps]; [congruence|]. cbn [ports_text]. rewrite <- app_assoc.
      rewrite skip_print by apply nn_open. reflexivity.
  - cbn [blocks_tail]. unfold block_text at 1. rewrite <- app_assoc. cbn [app].
    destruct (print_int_cons (gsize b)) as (c & r & E & _).
    cbn [scan_loop]. rewrite break_print by (auto; apply nn_open || reflexivity).
    rewrite scan_print_int_nil. rewrite E at 1. cbn [app].
    set (rest := " "%char :: block_text b' ++ blocks_tail bs).
    rewrite <- app_assoc. cbn [app].
    replace (skip_while sep_open (ports_text (gports b) ++ ")"%char :: rest)) with (ports_text (gports b) ++ ")"%char :: rest).
    + rewrite scan_group_ok; auto.
      * assert (R : skip_while sep1 (skip_while sep1 rest) = block_text b' ++ blocks_tail bs).
        { unfold rest. change (skip_while sep1 (" "%char :: block_text b' ++ blocks_tail bs)) with
            (skip_while sep1 (block_text b' ++ blocks_tail bs)).
          unfold block_text. rewrite <- app_assoc. rewrite skip_print by apply nn_sep1.
          apply skip_print, nn_sep1. }
        rewrite R, IH by (auto; cbn in *; lia). rewrite group_entries_eq by auto. reflexivity.
      * rewrite app_length. pose proof (ports_text_length (gports b) Hne). cbn. lia.
    + destruct (gports b) as [|p ps]; [congruence|]. cbn [ports_text]. rewrite <- app_assoc.
      rewrite skip_print by apply nn_open. reflexivity.
Qed.

Lemma block_text_length b : 1 <= length (block_text b).
Proof. unfold block_text. rewrite app_length. cbn. lia. Qed.
Lemma blocks_tail_length bs : length bs <= length (blocks_tail bs).
Proof. induction bs as [|b bs IH]; cbn; auto. rewrite app_length. lia. Qed.

Lemma ports_round_trip bs : bs <> [] -> Forall group_ok bs ->
  exists t, print_ports_groups (ports_of bs) (groups_of bs) = Some t /\
            scan_ports_groups t = Some (ports_of bs, groups_of bs).
Proof.
  intros Hne Hok. destruct bs as [|b bs]; [congruence|].
  eexists. split; [apply print_blocks; auto|]. unfold scan_ports_groups.
  replace (skip_while sep1 (block_text b ++ blocks_tail bs)) with (block_text b ++ blocks_tail bs).
  - apply scan_loop_blocks; auto. rewrite app_length. cbn.
    pose proof (block_text_length b). pose proof (blocks_tail_length bs). lia.
  - unfold block_text. rewrite <- app_assoc. rewrite skip_print by apply nn_sep1. reflexivity.
Qed.
