(* C70: the reduce_scatter among the cores of one node.
   C71: it always comes to an end.
   C72: without the first barrier the two sets of shared memory are needed. *)
From Verif Require Import Base NodeModel SingleModel SingleSpec SyncProofs SyncConcat SyncBank SingleProofs.
Local Open Scope nat_scope.

(* However the cores interleave and however often the operation is executed: a core that
   has returned from execution k has its block of the vector reduced in execution k.
   Either the first barrier is there, or two byte codes take turns. *)
Theorem C70_reduce_scatter_one_node :
  forall (V : Type) (op : V -> V -> V) send counts first alt times c0 m0 s c k x,
  counts_ok counts -> first = true \/ alt = true ->
  breach op send (length counts) (bstart (fun c => scatter_run counts first alt times c) c0 m0) s ->
  c < length counts -> k < times ->
  returned (fun t => scatter_run counts first alt t c) times s c k ->
  (0 <= x < nth c counts 0)%Z ->
  bmem s (recvbuf_of counts k c + x)%Z =
  in_order op (fun i => send i (sendbuf_of counts k + (block_start counts c + x))%Z) (length counts).
Proof.
  intros V op send counts first alt times c0 m0 s c k x ok safe.
  exact (scatter_value counts first alt ok safe op send c0 m0 times s c k x).
Qed.
Print Assumptions C70_reduce_scatter_one_node.

(* In every state that can be reached some core can go on, unless all have finished; and
   every step is one step less to do. *)
Theorem C71_reduce_scatter_progress :
  forall (V : Type) (op : V -> V -> V) send counts first alt times c0 m0 s,
  counts_ok counts ->
  breach op send (length counts) (bstart (fun c => scatter_run counts first alt times c) c0 m0) s ->
  bfinished (length counts) s \/
  exists c s', c < length counts /\ bstep op send s c = Some s' /\
    bwork (length counts) s' < bwork (length counts) s.
Proof.
  intros V op send counts first alt times c0 m0 s ok R.
  destruct (scatter_progress counts first alt ok op send c0 m0 times s R) as [F|(c & s' & Hc & St)]; auto.
  right. exists c, s'. repeat split; auto. eapply bstep_work; eauto.
Qed.
Print Assumptions C71_reduce_scatter_progress.

Theorem C71_steps_are_bounded :
  forall (V : Type) (op : V -> V -> V) send n s c s',
  c < n -> bstep op send s c = Some s' -> bwork n s' < bwork n s.
Proof. intros. eapply bstep_work; eauto. Qed.
Print Assumptions C71_steps_are_bounded.

(* Three cores, an empty block among them. *)
Example C70_example : counts_ok [2; 0; 4]%Z.
Proof. split; [discriminate|split; [reflexivity|repeat constructor; lia]]. Qed.

(* Executions given by the order in which the cores take steps. *)
Fixpoint follow {V} (op : V -> V -> V) send (l : list nat) (s : @bstate V) : option (@bstate V) :=
  match l with
  | [] => Some s
  | c :: l' => match bstep op send s c with Some s' => follow op send l' s' | None => None end
  end.
Lemma follow_reach {V} (op : V -> V -> V) send n s0 l : forall s s', Forall (fun c => c < n) l ->
  breach op send n s0 s -> follow op send l s = Some s' -> breach op send n s0 s'.
Proof.
  induction l as [|c l IH]; simpl; intros s s' F R E.
  - now injection E as <-.
  - inversion F as [|? ? Hc F']; subst. destruct (bstep op send s c) as [s1|] eqn:St; [|discriminate].
    apply (IH s1 s'); auto. eapply BR_step; eauto.
Qed.

Definition example_send (c : nat) (b : Z) : Z := (100 * Z.of_nat c + b)%Z.

(* two cores, two executions with the sets of flags taking turns: core 0 has finished,
   core 1 has returned from execution 0 *)
Example C70_example_returned :
  exists s, breach Z.add example_send 2 (bstart (fun c => scatter_run [1; 1]%Z false true 2 c) (fun _ => 0%Z) (fun _ => 0%Z)) s /\
    returned (fun t => scatter_run [1; 1]%Z false true t 0) 2 s 0 1 /\
    returned (fun t => scatter_run [1; 1]%Z false true t 1) 2 s 1 0 /\
    bmem s (recvbuf_of [1; 1]%Z 1 0) = (2 + 102)%Z /\ bmem s (recvbuf_of [1; 1]%Z 0 1) = (1 + 101)%Z.
Proof.
  set (l := [0; 0; 0; 1; 1; 1; 0; 0; 0; 0; 0; 0; 1; 1; 1; 1; 1; 1; 0; 0; 0]).
  set (s0 := bstart (fun c => scatter_run [1; 1]%Z false true 2 c) (fun _ => 0%Z) (fun _ => 0%Z)).
  destruct (follow Z.add example_send l s0) as [s|] eqn:E; [|vm_compute in E; discriminate].
  exists s. split; [|split; [|split; [|split]]].
  - apply (follow_reach Z.add example_send 2 s0 l s0 s); [repeat constructor|constructor|exact E].
  - unfold returned. vm_compute in E. injection E as <-. vm_compute. lia.
  - unfold returned. vm_compute in E. injection E as <-. vm_compute. lia.
  - vm_compute in E. injection E as <-. reflexivity.
  - vm_compute in E. injection E as <-. reflexivity.
Qed.

(* A code without the first barrier, executed twice with one set of shared memory: a
   fast core overwrites its contribution before the other one has read it. *)
Theorem C72_one_segment_without_first_barrier_refuted :
  exists counts times (send : nat -> Z -> Z) s c k x,
  counts_ok counts /\
  breach Z.add send (length counts) (bstart (fun c => scatter_run counts false false times c) (fun _ => 0%Z) (fun _ => 0%Z)) s /\
  c < length counts /\ k < times /\ returned (fun t => scatter_run counts false false t c) times s c k /\
  (0 <= x < nth c counts 0)%Z /\
  bmem s (recvbuf_of counts k c + x)%Z <>
  in_order Z.add (fun i => send i (sendbuf_of counts k + (block_start counts c + x))%Z) (length counts).
Proof.
  set (l := [0; 0; 0; 1; 1; 1; 0; 0; 0; 0; 0; 1; 1; 1]).
  set (s0 := bstart (fun c => scatter_run [1; 1]%Z false false 2 c) (fun _ => 0%Z) (fun _ => 0%Z)).
  destruct (follow Z.add example_send l s0) as [s|] eqn:E; [|vm_compute in E; discriminate].
  exists [1; 1]%Z, 2, example_send, s, 1, 0, 0%Z.
  split; [split; [discriminate|split; [reflexivity|repeat constructor; lia]]|].
  split; [apply (follow_reach Z.add example_send 2 s0 l s0 s); [repeat constructor|constructor|exact E]|].
  split; [simpl; lia|]. split; [lia|]. split; [|split; [simpl; lia|]].
  - unfold returned. vm_compute in E. injection E as <-. vm_compute. lia.
  - vm_compute in E. injection E as <-. vm_compute. discriminate.
Qed.
Print Assumptions C72_one_segment_without_first_barrier_refuted.
