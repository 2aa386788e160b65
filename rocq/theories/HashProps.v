From Verif Require Import Base HashModel HashSpec HashProofs HashWitness.

(* C01: for every hash function and every legal history of registrations,
   look-ups and releases, every answer is the one a finite map gives.
   Histories of any length are covered; [legal] asks that MPI hands out
   non-null requests that are not registered already, that at most 256 are
   registered at once and that, once 256 registrations have been made, only
   registered requests are looked up (see C02 for why). *)
Theorem C01_registry_is_a_map :
  forall (K : Type) (keq : forall a b : K, {a = b} + {a <> b}) (null : K) (h : K -> nat),
  (forall k, h k < 256) ->
  forall (os : list (@hop K)), legal keq null (@rempty K) 0 0 os ->
  forall fuel, 256 <= fuel ->
  exists t, hash_run keq null h fuel (@hash_init K) os
            = Some (t, snd (spec_run keq (@rempty K) os)).
Proof. exact registry_refines_map_256. Qed.
Print Assumptions C01_registry_is_a_map.

(* A history with two colliding requests, a release, a re-registration and
   an unknown request. *)
Example C01_example :
  let ops := [HInsert [1;2] 4%Z; HInsert [2;1] 6%Z; HDelete [1;2]; HSearch [2;1];
              HSearch [1;2]; HInsert [3;0] 8%Z; HInsert [1;2] 10%Z; HSearch [1;2]; HSearch [2;1]] in
  legal bytes_eq_dec [] rempty 0 0 ops /\
  snd (spec_run bytes_eq_dec rempty ops) = [0; 0; 4; 6; -1; 0; 0; 10; 6]%Z.
Proof. vm_compute. repeat split; try lia; try discriminate; try (left; discriminate); right; lia. Qed.

(* C02 fails: there is a legal history with never more than one registered
   request (each one is released before the next is registered) after which
   the look-up of an unregistered request probes for ever. *)
Theorem C02_registry_terminates_refuted :
  exists (os : list (@hop (list nat))) t rs key,
    legal bytes_eq_dec [] (@rempty _) 0 0 os /\
    (forall i, Nat.even i = true -> i < length os -> exists k v,
       nth_error os i = Some (HInsert k v) /\ nth_error os (S i) = Some (HDelete k)) /\
    hash_run bytes_eq_dec [] hash_code 256 (@hash_init _) os = Some (t, rs) /\
    key <> [] /\ fst (spec_run bytes_eq_dec (@rempty _) os) key = None /\
    forall fuel, hash_op bytes_eq_dec [] hash_code fuel t (HSearch key) = None.
Proof. exact registry_diverges. Qed.
Print Assumptions C02_registry_terminates_refuted.

(* The other half of C02: with 256 requests registered, the next registration
   probes for ever. *)
Theorem C02_registration_when_full_refuted :
  exists (os : list (@hop (list nat))) t rs,
    length os = 256 /\
    (forall o, In o os -> exists k v, o = HInsert k v /\ k <> []) /\
    NoDup os /\
    hash_run bytes_eq_dec [] hash_code 256 (@hash_init _) os = Some (t, rs) /\
    forall key v fuel, hash_op bytes_eq_dec [] hash_code fuel t (HInsert key v) = None.
Proof. exact registration_diverges. Qed.
Print Assumptions C02_registration_when_full_refuted.
