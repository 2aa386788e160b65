(* C73: Allreduce among the cores of one node.
   C74: Reduce among the cores of one node.
   C75: Bcast among the cores of one node.
   C76: a Bcast of at most 56 bytes delivers what was in the cache lines before.
   C77: all three always come to an end.
   C78: without the first barrier the two sets of shared memory are needed. *)
From Verif Require Import Base NodeModel NodeSpec NodeProofs SingleModel SingleSpec SyncBank SingleProofs LocalModel LocalSpec LocalTree LocalProofs.
From Coq Require Import Permutation.
Local Open Scope nat_scope.

(* However the cores interleave and however often the operation is executed: a core that
   has returned from execution k has the sum of the vectors passed to execution k.  Either
   the first barrier is there, or two byte codes take turns. *)
Theorem C73_allreduce_one_node :
  forall (V : Type) (op : V -> V -> V) e send p half first alt times c0 m0 s c k y,
  local_ok p half -> few_waits p half (-1) first -> separated first alt -> comm_monoid op e -> idle p half e m0 ->
  breach op send (n_cores p) (bstart (local_run p half (-1) first alt times) c0 m0) s ->
  c < n_cores p -> k < times -> returned (fun t => local_run p half (-1) first alt t c) times s c k ->
  (0 <= y < bytes (n_counts p))%Z ->
  received p s k c y = reduction op e (sent send (bytes (n_counts p)) k) (n_cores p) y.
Proof.
  intros V op e send p half first alt times c0 m0 s c k y lok few sep cm id Rs Hc Hk Rt Hy.
  destruct (good p half lok) as (K & tg). unfold received. rewrite <- total_bytes in *.
  now apply (tree_received p half (-1) first alt lok eq_refl sep K tg few op e send c0 m0 times cm id s c k y).
Qed.
Print Assumptions C73_allreduce_one_node.

(* Reduce: the root has the sum; the receive buffers of the others are left alone. *)
Theorem C74_reduce_one_node :
  forall (V : Type) (op : V -> V -> V) e send p half r first alt times c0 m0 s k y,
  local_ok p half -> few_waits p half (Z.of_nat r) first -> separated first alt -> comm_monoid op e -> idle p half e m0 ->
  breach op send (n_cores p) (bstart (local_run p half (Z.of_nat r) first alt times) c0 m0) s ->
  r < n_cores p -> k < times -> returned (fun t => local_run p half (Z.of_nat r) first alt t r) times s r k ->
  (0 <= y < bytes (n_counts p))%Z ->
  received p s k r y = reduction op e (sent send (bytes (n_counts p)) k) (n_cores p) y.
Proof.
  intros V op e send p half r first alt times c0 m0 s k y lok few sep cm id Rs Hc Hk Rt Hy.
  destruct (good p half lok) as (K & tg). unfold received. rewrite <- total_bytes in *.
  assert (NB : (Z.of_nat r <=? -10)%Z = false) by (apply Z.leb_gt; lia).
  apply (tree_received p half (Z.of_nat r) first alt lok NB sep K tg few op e send c0 m0 times cm id s r k y); auto.
  unfold gets. rewrite Z.eqb_refl. apply orb_true_r.
Qed.
Print Assumptions C74_reduce_one_node.

Theorem C74_reduce_leaves_the_others_alone :
  forall (V : Type) (op : V -> V -> V) send p half r first alt times c0 m0 s c k y,
  local_ok p half -> few_waits p half (Z.of_nat r) first -> separated first alt ->
  breach op send (n_cores p) (bstart (local_run p half (Z.of_nat r) first alt times) c0 m0) s ->
  c < n_cores p -> c <> r -> (0 <= y < bytes (n_counts p))%Z ->
  received p s k c y = m0 (recv_cell (n_cores p) (bytes (n_counts p)) k c y).
Proof.
  intros V op send p half r first alt times c0 m0 s c k y lok few sep Rs Hc Ne Hy.
  destruct (good p half lok) as (K & tg). unfold received. rewrite <- total_bytes in *.
  assert (NB : (Z.of_nat r <=? -10)%Z = false) by (apply Z.leb_gt; lia).
  apply (tree_kept p half (Z.of_nat r) first alt NB sep K tg few op send c0 m0 times s c k y); auto.
  unfold gets. rewrite (proj2 (Z.eqb_neq _ (-1))), (proj2 (Z.ltb_ge _ 0)), (proj2 (Z.eqb_neq (Z.of_nat r) (Z.of_nat c))) by lia. reflexivity.
Qed.
Print Assumptions C74_reduce_leaves_the_others_alone.

(* Bcast from core r, more than 56 bytes or device memory. *)
Theorem C75_bcast_one_node :
  forall (V : Type) (op : V -> V -> V) send p half r first alt times c0 m0 s c k y,
  long_message p -> (Z.of_nat (n_cores p) < 2 ^ 31)%Z -> separated first alt ->
  breach op send (n_cores p) (bstart (local_run p half (-10 - Z.of_nat r) first alt times) c0 m0) s ->
  r < n_cores p -> c < n_cores p -> c <> r -> k < times ->
  returned (fun t => local_run p half (-10 - Z.of_nat r) first alt t c) times s c k ->
  (0 <= y < bytes (n_counts p))%Z ->
  received p s k c y = sent send (bytes (n_counts p)) k r y.
Proof.
  intros V op send p half r first alt times c0 m0 s c k y lg ns sep Rs Hr Hc Ne Hk Rt Hy.
  unfold received. rewrite <- total_bytes in *. unfold long_message in lg. rewrite <- small_fast in lg.
  now apply (bcast_received p half r first alt Hr ns sep op send c0 m0 times s c k y).
Qed.
Print Assumptions C75_bcast_one_node.

Theorem C75_bcast_leaves_the_root_alone :
  forall (V : Type) (op : V -> V -> V) send p half r first alt times c0 m0 s k y,
  (Z.of_nat (n_cores p) < 2 ^ 31)%Z -> separated first alt -> r < n_cores p ->
  breach op send (n_cores p) (bstart (local_run p half (-10 - Z.of_nat r) first alt times) c0 m0) s ->
  (0 <= y < bytes (n_counts p))%Z ->
  received p s k r y = m0 (recv_cell (n_cores p) (bytes (n_counts p)) k r y).
Proof.
  intros V op send p half r first alt times c0 m0 s k y ns sep Hr Rs Hy.
  unfold received. rewrite <- total_bytes in *.
  now apply (bcast_root_kept p half r first alt Hr ns sep op send c0 m0 times s k y).
Qed.
Print Assumptions C75_bcast_leaves_the_root_alone.

(* A Bcast of at most 56 bytes in host memory: the root writes to the buffers, the others read the
   cache lines, so that they always receive what was there at the beginning. *)
Theorem C76_short_bcast_ignores_the_root :
  forall (V : Type) (op : V -> V -> V) send p half r first alt times c0 m0 s c k y,
  small p = true -> (Z.of_nat (n_cores p) < 2 ^ 31)%Z -> separated first alt ->
  breach op send (n_cores p) (bstart (local_run p half (-10 - Z.of_nat r) first alt times) c0 m0) s ->
  r < n_cores p -> c < n_cores p -> c <> r -> k < times ->
  returned (fun t => local_run p half (-10 - Z.of_nat r) first alt t c) times s c k ->
  (0 <= y < bytes (n_counts p))%Z ->
  received p s k c y = m0 (shm_cell (bank alt k) true (8 + y)).
Proof.
  intros V op send p half r first alt times c0 m0 s c k y sm ns sep Rs Hr Hc Ne Hk Rt Hy.
  unfold received. rewrite <- total_bytes in *. rewrite <- small_fast in sm. rewrite (Z.add_comm 8).
  now apply (bcast_fast_received p half r first alt Hr ns sep op send c0 m0 times s c k y).
Qed.
Print Assumptions C76_short_bcast_ignores_the_root.

(* In every state that can be reached some core can go on, unless all have finished; and
   every step is one step less to do. *)
Theorem C77_allreduce_and_reduce_progress :
  forall (V : Type) (op : V -> V -> V) send p half root first alt times c0 m0 s,
  (-1 <= root)%Z -> local_ok p half -> few_waits p half root first -> separated first alt ->
  breach op send (n_cores p) (bstart (local_run p half root first alt times) c0 m0) s ->
  bfinished (n_cores p) s \/
  exists c s', c < n_cores p /\ bstep op send s c = Some s' /\ bwork (n_cores p) s' < bwork (n_cores p) s.
Proof.
  intros V op send p half root first alt times c0 m0 s Hroot lok few sep Rs.
  destruct (good p half lok) as (K & tg).
  assert (NB : (root <=? -10)%Z = false) by (apply Z.leb_gt; lia).
  destruct (tree_progress p half root first alt NB sep K tg few op send c0 m0 times s Rs) as [F|(c & s' & Hc & St)]; auto.
  right. exists c, s'. repeat split; auto. eapply bstep_work; eauto.
Qed.
Print Assumptions C77_allreduce_and_reduce_progress.

Theorem C77_bcast_progress :
  forall (V : Type) (op : V -> V -> V) send p half r first alt times c0 m0 s,
  r < n_cores p -> (Z.of_nat (n_cores p) < 2 ^ 31)%Z -> separated first alt ->
  breach op send (n_cores p) (bstart (local_run p half (-10 - Z.of_nat r) first alt times) c0 m0) s ->
  bfinished (n_cores p) s \/
  exists c s', c < n_cores p /\ bstep op send s c = Some s' /\ bwork (n_cores p) s' < bwork (n_cores p) s.
Proof.
  intros V op send p half r first alt times c0 m0 s Hr ns sep Rs.
  destruct (bcast_progress p half r first alt Hr ns sep op send c0 m0 times s Rs) as [F|(c & s' & Hc & St)]; auto.
  right. exists c, s'. repeat split; auto. eapply bstep_work; eauto.
Qed.
Print Assumptions C77_bcast_progress.

(* ---- examples ---- *)
(* Executions given by the order in which the cores are tried; a core that has to wait is passed over. *)
Fixpoint go {V} (op : V -> V -> V) send (l : list nat) (s : @bstate V) : @bstate V :=
  match l with
  | [] => s
  | c :: l' => go op send l' (match bstep op send s c with Some s' => s' | None => s end)
  end.
Lemma go_reach {V} (op : V -> V -> V) send n s0 l : forall s, Forall (fun c => c < n) l ->
  breach op send n s0 s -> breach op send n s0 (go op send l s).
Proof.
  induction l as [|c l IH]; simpl; intros s F R; auto. inversion F as [|? ? Hc F']; subst. apply IH; auto.
  destruct (bstep op send s c) as [s1|] eqn:St; auto. eapply BR_step; eauto.
Qed.
Lemma below_all n l : forallb (fun c => c <? n) l = true -> Forall (fun c => c < n) l.
Proof. intros E. apply Forall_forall. intros c I. apply Nat.ltb_lt. rewrite forallb_forall in E. auto. Qed.
Definition rounds3 (k : nat) : list nat := concat (repeat [0; 1; 2] k).

(* three cores; one vector of 16 bytes in the cache lines, factors 1 and 4: an instance without a core *)
Definition short3 : node_par := NP 3 4%Z [1; 4] [16%Z] [0] false.
(* three cores; one vector of 64 bytes, the method with pairs *)
Definition long3 : node_par := NP 3 4%Z [1; 2; 2] [64%Z] [0] false.

Lemma short3_ok : local_ok short3 false.
Proof.
  split; [now exists 16%Z|]. split; cbn.
  - lia.
  - split; [discriminate|repeat constructor].
  - reflexivity.
  - right. lia.
  - split; [repeat constructor; lia|lia].
  - split; [lia|now exists 4%Z].
  - apply Permutation_refl.
Qed.
Lemma long3_ok : local_ok long3 true.
Proof.
  split; [now exists 64%Z|]. split; cbn.
  - exists 1. cbn. split; [reflexivity|lia].
  - reflexivity.
  - split; [repeat constructor; lia|lia].
  - split; [lia|now exists 16%Z].
  - apply Permutation_refl.
Qed.

Example C73_example_short : local_ok short3 false /\ few_waits short3 false (-1) true /\ separated true false /\
  comm_monoid Z.add 0%Z /\ idle short3 false 0%Z (fun _ => 0%Z).
Proof.
  split; [apply short3_ok|]. split; [vm_compute; reflexivity|]. split; [now left|]. split.
  - split; intros; lia.
  - intros _ b Hb i x _ _ _. reflexivity.
Qed.
Example C73_example_long : local_ok long3 true /\ few_waits long3 true (-1) false /\ separated false true /\
  idle long3 true 0%Z (fun _ => 0%Z).
Proof.
  split; [apply long3_ok|]. split; [vm_compute; reflexivity|]. split; [now right|]. intros E; discriminate.
Qed.

Definition local_send (c : nat) (b : Z) : Z := (1000 * Z.of_nat c + b)%Z.
Definition zeros : Z -> Z := fun _ => 0%Z.
Definition local_end (p : node_par) (half : bool) (root : Z) (first alt : bool) (times : nat) (l : list nat) : @bstate Z :=
  go Z.add local_send l (bstart (local_run p half root first alt times) (fun _ => 0%Z) zeros).
Lemma local_end_reach p half root first alt times l : forallb (fun c => c <? n_cores p) l = true ->
  breach Z.add local_send (n_cores p) (bstart (local_run p half root first alt times) (fun _ => 0%Z) zeros)
         (local_end p half root first alt times l).
Proof. intros E. apply go_reach; [now apply below_all|constructor]. Qed.

(* two executions: all three cores have returned from the second one *)
Example C73_example_returned :
  exists s, breach Z.add local_send 3 (bstart (local_run short3 false (-1) false true 2) (fun _ => 0%Z) zeros) s /\
    returned (fun t => local_run short3 false (-1) false true t 1) 2 s 1 1 /\
    received short3 s 1 1 5%Z = (21 + 1021 + 2021)%Z.
Proof.
  exists (local_end short3 false (-1) false true 2 (rounds3 300)).
  split; [apply (local_end_reach short3); vm_compute; reflexivity|].
  split; [unfold returned; vm_compute; lia|vm_compute; reflexivity].
Qed.
Example C74_example_returned :
  local_ok long3 true /\ few_waits long3 true 2 true /\
  exists s, breach Z.add local_send 3 (bstart (local_run long3 true 2 true false 2) (fun _ => 0%Z) zeros) s /\
    returned (fun t => local_run long3 true 2 true false t 2) 2 s 2 1 /\
    received long3 s 1 2 5%Z = (69 + 1069 + 2069)%Z /\ received long3 s 1 0 5%Z = 0%Z.
Proof.
  split; [apply long3_ok|]. split; [vm_compute; reflexivity|].
  exists (local_end long3 true 2 true false 2 (rounds3 900)).
  split; [apply (local_end_reach long3); vm_compute; reflexivity|].
  split; [unfold returned; vm_compute; lia|split; vm_compute; reflexivity].
Qed.
Example C75_example_returned :
  long_message long3 /\
  exists s, breach Z.add local_send 3 (bstart (local_run long3 true (-11) true false 2) (fun _ => 0%Z) zeros) s /\
    returned (fun t => local_run long3 true (-11) true false t 2) 2 s 2 1 /\
    received long3 s 1 2 5%Z = 1069%Z /\ received long3 s 1 1 5%Z = 0%Z.
Proof.
  split; [reflexivity|].
  exists (local_end long3 true (-11) true false 2 (rounds3 900)).
  split; [apply (local_end_reach long3); vm_compute; reflexivity|].
  split; [unfold returned; vm_compute; lia|split; vm_compute; reflexivity].
Qed.

(* The claim that Bcast delivers the vector of the root whatever its length. *)
Theorem C76_short_bcast_refuted :
  exists p half r first alt times s c k y,
  local_ok p half /\ (Z.of_nat (n_cores p) < 2 ^ 31)%Z /\ separated first alt /\
  breach Z.add local_send (n_cores p) (bstart (local_run p half (-10 - Z.of_nat r) first alt times) (fun _ => 0%Z) zeros) s /\
  bfinished (n_cores p) s /\ r < n_cores p /\ c < n_cores p /\ c <> r /\ k < times /\ (0 <= y < bytes (n_counts p))%Z /\
  received p s k c y <> sent local_send (bytes (n_counts p)) k r y.
Proof.
  exists short3, false, 1, true, false, 1, (local_end short3 false (-11) true false 1 (rounds3 100)), 0, 0, 5%Z.
  split; [apply short3_ok|]. split; [reflexivity|]. split; [now left|].
  split; [apply (local_end_reach short3); vm_compute; reflexivity|].
  split; [intros [|[|[|c]]] Hc; try (vm_compute; reflexivity); simpl in Hc; lia|].
  split; [simpl; lia|]. split; [simpl; lia|]. split; [lia|]. split; [lia|].
  split; [cbn; lia|]. vm_compute. discriminate.
Qed.
Print Assumptions C76_short_bcast_refuted.

(* A code without the first barrier, executed twice with one set of shared memory: the
   first core is in its second execution before another one has copied the result of the first. *)
Theorem C78_one_segment_without_first_barrier_refuted :
  exists p half times s c k y,
  local_ok p half /\ few_waits p half (-1) false /\
  breach Z.add local_send (n_cores p) (bstart (local_run p half (-1) false false times) (fun _ => 0%Z) zeros) s /\
  c < n_cores p /\ k < times /\ returned (fun t => local_run p half (-1) false false t c) times s c k /\
  (0 <= y < bytes (n_counts p))%Z /\
  received p s k c y <> reduction Z.add 0%Z (sent local_send (bytes (n_counts p)) k) (n_cores p) y.
Proof.
  exists (NP 2 1%Z [1; 2] [1%Z] [0] false), false, 2.
  exists (local_end (NP 2 1%Z [1; 2] [1%Z] [0] false) false (-1) false false 2 [0; 0; 1; 1; 1; 1; 0; 0; 0; 0; 0; 0; 1; 1]), 1, 0, 0%Z.
  split; [split; [now exists 1%Z|]; split; cbn|].
  - lia.
  - split; [discriminate|repeat constructor].
  - reflexivity.
  - now left.
  - split; [repeat constructor; lia|lia].
  - split; [lia|now exists 1%Z].
  - apply Permutation_refl.
  - split; [vm_compute; reflexivity|].
    split; [apply (local_end_reach (NP 2 1%Z [1; 2] [1%Z] [0] false)); vm_compute; reflexivity|].
    split; [simpl; lia|]. split; [lia|]. split; [unfold returned; vm_compute; lia|]. split; [cbn; lia|].
    vm_compute. discriminate.
Qed.
Print Assumptions C78_one_segment_without_first_barrier_refuted.
