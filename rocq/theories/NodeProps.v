(* C38: the reduction inside a node computes the reduced vector.
   C39: it always comes to an end.
   C40: parameters set by the user for which one of the two fails. *)
From Verif Require Import Base NodeModel NodeSpec NodeProofs NodeRefute.
From Coq Require Import Permutation.
Local Open Scope nat_scope.

Theorem C38_copyin_reduces :
  forall (V : Type) p (op : V -> V -> V) e send m0 c0 s c x,
  copyin_ok p -> (Z.of_nat (count_waits (program p 0)) < 2 ^ 31)%Z ->
  comm_monoid op e -> idle_neutral p e m0 ->
  nreach op send (n_cores p) (nstart (program p) c0 m0) s ->
  c < n_cores p -> rest s c = [] -> (0 <= x < bytes (n_counts p))%Z ->
  mem s (cell p 0 x) =
  reduction op e send (n_cores p) (nth (Z.to_nat x) (order (n_counts p) (n_fracs p)) 0%Z).
Proof. intros V p op e send m0 c0 s c x ok few. exact (copyin_value p ok few op e send m0 c0 s c x). Qed.
Print Assumptions C38_copyin_reduces.

Theorem C38_half_copyin_reduces :
  forall (V : Type) p (op : V -> V -> V) e send m0 c0 s c x,
  half_ok p -> (Z.of_nat (count_waits (program_half p 0)) < 2 ^ 31)%Z ->
  comm_monoid op e ->
  nreach op send (n_cores p) (nstart (program_half p) c0 m0) s ->
  c < n_cores p -> rest s c = [] -> (0 <= x < bytes (n_counts p))%Z ->
  mem s (cell p 0 x) =
  reduction op e send (n_cores p) (nth (Z.to_nat x) (order (n_counts p) (n_fracs p)) 0%Z).
Proof.
  intros V p op e send m0 c0 s c x ok few. destruct (hf_factors p ok) as (k & Ek & Nk).
  exact (half_copyin_value p k ok Ek Nk few op e send m0 c0 s c x).
Qed.
Print Assumptions C38_half_copyin_reduces.

(* In every state that can be reached some core can go on, unless all have finished;
   and every step is one step less to do. *)
Theorem C39_copyin_progress :
  forall (V : Type) p (op : V -> V -> V) send m0 c0 s,
  copyin_ok p -> (Z.of_nat (count_waits (program p 0)) < 2 ^ 31)%Z ->
  nreach op send (n_cores p) (nstart (program p) c0 m0) s ->
  finished (n_cores p) s \/
  exists c s', c < n_cores p /\ nstep op send s c = Some s' /\ work (n_cores p) s' < work (n_cores p) s.
Proof. intros V p op send m0 c0 s ok few. exact (copyin_progress p ok few op send m0 c0 s). Qed.
Print Assumptions C39_copyin_progress.

Theorem C39_half_copyin_progress :
  forall (V : Type) p (op : V -> V -> V) send m0 c0 s,
  half_ok p -> (Z.of_nat (count_waits (program_half p 0)) < 2 ^ 31)%Z ->
  nreach op send (n_cores p) (nstart (program_half p) c0 m0) s ->
  finished (n_cores p) s \/
  exists c s', c < n_cores p /\ nstep op send s c = Some s' /\ work (n_cores p) s' < work (n_cores p) s.
Proof.
  intros V p op send m0 c0 s ok few. destruct (hf_factors p ok) as (k & Ek & Nk).
  exact (half_copyin_progress p k ok Ek Nk few op send m0 c0 s).
Qed.
Print Assumptions C39_half_copyin_progress.

Theorem C39_steps_are_bounded :
  forall (V : Type) (op : V -> V -> V) send n s c s',
  c < n -> nstep op send s c = Some s' -> work n s' < work n s.
Proof. intros. eapply work_decreases; eauto. Qed.
Print Assumptions C39_steps_are_bounded.

(* Four cores in two groups; three cores with the layout in cache lines and an
   idle instance; the second method with three cores. *)
Definition par4 : node_par := NP 4 4 [2; 2] [40; 24]%Z [1; 0] false.
Definition par3 : node_par := NP 3 4 [1; 2; 2] [16]%Z [0] false.
Definition par3h : node_par := NP 3 4 [1; 2; 2] [64; 64]%Z [0; 1] false.

Example C38_example_groups : copyin_ok par4 /\ (Z.of_nat (count_waits (program par4 0)) < 2 ^ 31)%Z.
Proof.
  split; [|vm_compute; reflexivity]. split; cbn.
  - lia.
  - split; [discriminate|repeat constructor].
  - reflexivity.
  - now left.
  - split; [repeat constructor; lia|lia].
  - split; [lia|now exists 16%Z].
  - apply perm_swap.
Qed.
Example C38_example_idle :
  copyin_ok par3 /\ (Z.of_nat (count_waits (program par3 0)) < 2 ^ 31)%Z /\
  idle_neutral par3 0%Z (fun _ => 0%Z) /\ comm_monoid Z.add 0%Z.
Proof.
  refine (conj _ (conj _ (conj _ _))).
  - split; cbn.
    + lia.
    + split; [discriminate|repeat constructor].
    + reflexivity.
    + right. lia.
    + split; [repeat constructor; lia|lia].
    + split; [lia|now exists 4%Z].
    + apply Permutation_refl.
  - vm_compute. reflexivity.
  - intros i x _ _ _. reflexivity.
  - split; intros; lia.
Qed.
Example C38_example_half : half_ok par3h /\ (Z.of_nat (count_waits (program_half par3h 0)) < 2 ^ 31)%Z.
Proof.
  split; [|vm_compute; reflexivity]. split; cbn.
  - exists 1. cbn. split; [reflexivity|lia].
  - reflexivity.
  - split; [repeat constructor; lia|lia].
  - split; [lia|now exists 32%Z].
  - apply Permutation_refl.
Qed.
(* and a state in which all cores have finished *)
Example C38_example_finished :
  exists s, nreach Z.add witness_send 3 (nstart (program par3) 0 (fun _ => 0%Z)) s /\ finished 3 s /\
  mem s (cell par3 0 5) = 3018%Z.
Proof.
  exists (play witness_send 20 3 (nstart (program par3) 0 (fun _ => 0%Z))).
  split; [apply play_reach|split; [apply finished_spec; vm_compute; reflexivity|vm_compute; reflexivity]].
Qed.

(* The factors can also be set with the environment variable EXT_MPI_COPYIN or the
   info key ext_mpi_copyin; these are not checked.  A first factor that does not
   divide the number of cores: lines 515-521 provide for it, but the cores of the
   last, smaller group wait less often than the others, and the counters drift
   apart: there is a state in which no core can go on. *)
Theorem C40_uneven_groups_end_refuted :
  exists p s, n_cores p = 3 /\ n_factors p = [2; 2] /\
  nreach Z.add witness_send 3 (nstart (program p) 0 (fun _ => 0%Z)) s /\
  ~ finished 3 s /\ (forall c, c < 3 -> nstep Z.add witness_send s c = None).
Proof. exact uneven_stuck. Qed.
Print Assumptions C40_uneven_groups_end_refuted.

(* Factors that multiply to more than the number of cores, 128 bytes: the parts of
   the vector that belong to cores which do not exist are not reduced. *)
Theorem C40_large_product_reduces_refuted :
  exists p s, n_cores p = 3 /\ n_factors p = [1; 2; 2] /\ n_counts p = [128]%Z /\
  nreach Z.add witness_send 3 (nstart (program p) 0 (fun _ => 0%Z)) s /\ finished 3 s /\
  mem s (cell p 0 64) <> reduction Z.add 0%Z witness_send 3 64.
Proof. exact large_wrong. Qed.
Print Assumptions C40_large_product_reduces_refuted.

(* The second method with a vector that gets the layout in cache lines:
   reduce_copies_almost_half addresses the packed layout. *)
Theorem C40_half_small_reduces_refuted :
  exists p s, n_cores p = 3 /\ n_factors p = [1; 2; 2] /\ n_counts p = [8]%Z /\
  nreach Z.add witness_send 3 (nstart (program_half p) 0 (fun _ => 0%Z)) s /\ finished 3 s /\
  mem s (cell p 0 0) <> reduction Z.add 0%Z witness_send 3 0.
Proof. exact half_small_wrong. Qed.
Print Assumptions C40_half_small_reduces_refuted.

(* Factors that multiply to less than the number of cores: the vectors of the
   remaining cores are ignored. *)
Theorem C40_small_product_reduces_refuted :
  exists p s, n_cores p = 4 /\ n_factors p = [1; 2] /\
  nreach Z.add witness_send 4 (nstart (program p) 0 (fun _ => 0%Z)) s /\ finished 4 s /\
  mem s (cell p 0 0) <> reduction Z.add 0%Z witness_send 4 0.
Proof. exact few_wrong. Qed.
Print Assumptions C40_small_product_reduces_refuted.
