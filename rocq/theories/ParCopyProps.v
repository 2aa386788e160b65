(* Claim C28: splitting copies among the cores of a socket. *)
From Verif Require Import Base ParCopyModel ParCopySpec ParCopyProofs.
Local Open Scope Z_scope.

(* Every byte of every split copy is moved by exactly one core, no core leaves
   the copy, and copies to the same destination give the same byte to the same
   core (there is no barrier between them). *)
Theorem C28_every_byte_moved_once :
  forall ns ts ls, 0 < ns -> 0 < ts -> elementwise ts ls -> unbroken ls ->
  forall k c b, nth_error ls k = Some (Cpy c) -> cp_split c = true -> 0 <= b < cp_size c ->
  exists! r, 0 <= r < ns /\ moves ns ts r ls k b.
Proof. exact unique_core. Qed.
Print Assumptions C28_every_byte_moved_once.
Theorem C28_nothing_beyond :
  forall ns ts ls, 0 < ns -> 0 < ts -> elementwise ts ls -> unbroken ls ->
  forall k c b r, nth_error ls k = Some (Cpy c) -> cp_split c = true -> 0 <= b -> 0 <= r < ns ->
  moves ns ts r ls k b -> b < cp_size c.
Proof. exact inside. Qed.
Print Assumptions C28_nothing_beyond.
Theorem C28_same_byte_same_core :
  forall ns ts ls, 0 < ns -> 0 < ts -> elementwise ts ls -> unbroken ls ->
  forall j k cj ck b r r', same_run ls j k -> (j <= k)%nat ->
  nth_error ls j = Some (Cpy cj) -> cp_split cj = true -> nth_error ls k = Some (Cpy ck) -> cp_split ck = true ->
  0 <= b -> 0 <= r < ns -> 0 <= r' < ns -> moves ns ts r ls j b -> moves ns ts r' ls k b -> r = r'.
Proof. exact same_core. Qed.
Print Assumptions C28_same_byte_same_core.

Definition cpy (o1 o2 n : Z) : ln := Cpy (Copy true o1 o2 n).
Example C28_example :
  let ls := [cpy 0 100 40; cpy 0 200 16; Bar; cpy 8 300 24] in
  elementwise 8 ls /\ unbroken ls /\ same_run ls 0 1 /\
  parallel 2 8 0 ls = [[cpy 0 100 24]; [cpy 0 200 16]; [Bar]; [cpy 8 300 16]] /\
  parallel 2 8 1 ls = [[cpy 24 124 16]; []; [Bar]; [cpy 24 316 8]].
Proof.
  intros ls. split; [|split; [|split; [|split]]]; try (vm_compute; reflexivity).
  - intros c [E|[E|[E|[E|[]]]]]; inversion E; subst; cbn; (split; [lia|split; [lia|]]).
    + exists 5; reflexivity.
    + exists 2; reflexivity.
    + exists 3; reflexivity.
  - intros [|[|[|[|j]]]] [|[|[|[|k]]]] c c' L H1 H2 E B; try discriminate; try lia;
      try (destruct k; discriminate); try (destruct j; discriminate).
    + inversion H1; subst. inversion H2; subst. discriminate.
    + inversion H1; subst. inversion H2; subst. discriminate.
  - exists 0. intros [|[|i]] Hi; [eexists; split; reflexivity|eexists; split; reflexivity|lia].
Qed.

(* With another line between two copies to the same destination the cores
   disagree about the group: bytes 4..7 of the second line are moved (or added)
   by both cores. *)
Theorem C28_broken_group_refuted :
  exists ls k c b, elementwise 1 ls /\ nth_error ls k = Some (Cpy c) /\ cp_split c = true /\ 0 <= b < cp_size c /\
  moves 2 1 0 ls k b /\ moves 2 1 1 ls k b.
Proof.
  exists [cpy 0 100 16; Oth; cpy 0 200 8], 2%nat, (Copy true 0 200 8), 4.
  split; [|split; [reflexivity|split; [reflexivity|split; [cbn; lia|split]]]].
  - intros c [E|[E|[E|[]]]]; inversion E; subst; cbn; (split; [lia|split; [lia|]]); eexists; rewrite Z.mul_1_r; reflexivity.
  - exists (Copy true 0 200 8), (Copy true 0 200 8). split; [reflexivity|]. split; [reflexivity|]. cbn. lia.
  - exists (Copy true 0 200 8), (Copy true 4 204 4). split; [reflexivity|]. split; [reflexivity|]. cbn. lia.
Qed.
Print Assumptions C28_broken_group_refuted.

(* Bytes beyond the last whole element are dropped. *)
Theorem C28_partial_element_refuted :
  exists ts ls k c b, 0 < ts /\ unbroken ls /\ nth_error ls k = Some (Cpy c) /\ cp_split c = true /\ 0 <= b < cp_size c /\
  forall ns r, 0 <= r < ns -> ~ moves ns ts r ls k b.
Proof.
  exists 8, [cpy 0 100 7], 0%nat, (Copy true 0 100 7), 0.
  split; [lia|]. split; [|split; [reflexivity|split; [reflexivity|split; [cbn; lia|]]]].
  - intros [|j] [|k] c c' L H1 H2 E B; try lia; destruct k; discriminate.
  - intros ns r Hns (c & c' & _ & H & _). revert H.
    assert (P : part ns 8 r 7 7 = (0, 0)).
    { unfold part. rewrite (proj2 (Z.ltb_lt r ns)) by lia. change (Z.quot 7 8) with 0.
      rewrite (Z.quot_0_l ns), (Z.rem_0_l ns) by lia. rewrite (proj2 (Z.ltb_ge r 0)) by lia. reflexivity. }
    assert (E : parallel ns 8 r [cpy 0 100 7] = [[]]); [|rewrite E; discriminate].
    unfold parallel. cbn [exec]. unfold step, cpy. cbn [cp_split].
    change (old_size (regroup st0 (Cpy (Copy true 0 100 7)) [])) with 7. cbn [cp_size]. rewrite P. reflexivity.
Qed.
Print Assumptions C28_partial_element_refuted.
