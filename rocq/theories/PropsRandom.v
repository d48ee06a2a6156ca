(** C03, C04: the random number generator (MeshingRandomSampler.cpp). *)
From Verif Require Import Base RandomSampler RandomSpec RandomSamplerProofs RandomFloat.
From Coq Require Import Reals.
From Flocq Require Import Core.

(** ** C03.  Any seed, any number of draws: never out of bounds, a function of
    seed and count only, and every number is in [0,1).  Numbers are integers
    over 2^53 here; C04 says the doubles are the same numbers. *)
Theorem C03_uniform_in_unit_interval seed n :
  exists us g, draws zops n (initiate zops seed) = Ok (us, g)
    /\ length us = n /\ Forall (fun u => 0 <= u < 9007199254740992)%Z us.
Proof.
  destruct (draws_spec seed n) as [g E]. eexists. exists g.
  split; [exact E|]. exact (@draws_range _ _ _ _ E).
Qed.

(** The whole stream is the closed integer recurrence of RandomSpec.v. *)
Theorem C03_stream seed n :
  exists g, draws zops n (initiate zops seed) =
    Ok (map (spec_draw (spec_words seed) 5212886298506819 2020898595989513) (seq 0 n), g).
Proof. exact (draws_spec seed n). Qed.

(** ** C04.  For every rounding that leaves binary64 numbers alone. *)
Theorem C04_floating_point_is_exact (rnd : R -> R)
  (rnd_exact : forall x, binary64 x -> rnd x = x) seed n :
  exists g us, draws (rops rnd) n (initiate (rops rnd) seed) = Ok (map sc us, g)
    /\ us = map (spec_draw (spec_words seed) 5212886298506819 2020898595989513) (seq 0 n).
Proof. exact (@draws_exact rnd rnd_exact seed n). Qed.

Theorem C04_doubles_in_unit_interval (rnd : R -> R)
  (rnd_exact : forall x, binary64 x -> rnd x = x) seed n :
  exists g us, draws (rops rnd) n (initiate (rops rnd) seed) = Ok (us, g)
    /\ length us = n /\ Forall (fun u => 0 <= u < 1)%R us.
Proof. exact (@draws_unit_interval rnd rnd_exact seed n). Qed.

(** IEEE round-to-nearest-even and truncation satisfy the hypothesis. *)
Example C04_nearest_even x :
  binary64 x -> round radix2 (FLT_exp (-1074) 53) ZnearestE x = x.
Proof. intros H. apply round_generic; auto with typeclass_instances. Qed.
Example C04_toward_zero x :
  binary64 x -> round radix2 (FLT_exp (-1074) 53) Ztrunc x = x.
Proof. intros H. apply round_generic; auto with typeclass_instances. Qed.

(** A concrete run through a refill of the state (a hand-made state, because
    seeding costs 63440 steps of 64-bit arithmetic). *)
Example C03_run :
  match draws zops 3 (Rng (map (fun k => Z.of_nat k * 1000003)%Z (seq 0 1220)) 0
                        0 5212886298506819 2020898595989513 1220)%Z with
  | Ok (us, g) => rindx g = 3 /\ us = [5815212742227255; 1171090296531363; 4644123635699464]%Z
  | _ => False
  end.
Proof. vm_compute. split; reflexivity. Qed.

(** Per-thread generators are seeded differently while now >= t(t+1). *)
Theorem C54_thread_seeds_distinct now t1 t2 :
  (0 <= t1 < t2 -> (t2 + 1) * t2 <= now -> thread_seed now t1 <> thread_seed now t2)%Z.
Proof. exact (@thread_seed_distinct now t1 t2). Qed.
(** Beyond that bound two threads can share a stream. *)
Theorem C54_seed_collision_refuted :
  exists now t1 t2, (0 <= t1 < t2 /\ thread_seed now t1 = thread_seed now t2)%Z.
Proof. exists 10%Z, 3%Z, 4%Z. vm_compute. intuition congruence. Qed.
Example C54_eight_threads : (thread_seed 1700000000 6 <> thread_seed 1700000000 7)%Z.
Proof. vm_compute. discriminate. Qed.

(** The samplers made by the default constructor: the n1-th and the n2-th of a process
    get different seeds from one clock value when n2 (n2 - 1) <= now (division) or
    now < 1000 n2 (addition). *)
Theorem C54_default_seeds_distinct now n1 n2 :
  (0 < n1 < n2 -> 0 <= now -> (n2 * (n2 - 1) <= now \/ now < 1000 * n2) ->
   default_seed now n1 <> default_seed now n2)%Z.
Proof. exact (@default_seed_distinct now n1 n2). Qed.
Example C54_default_both_branches :
  (default_seed 1700000000 6 <> default_seed 1700000000 7 /\
   default_seed 1700000000 2000000 <> default_seed 1700000000 2000001)%Z.
Proof. split; apply C54_default_seeds_distinct; lia. Qed.
(** Between the two ranges the seeds collide, here with the fixed seed of the code. *)
Theorem C54_default_seed_collision_refuted :
  exists n1 n2, (0 < n1 < n2 /\ default_seed 1234567890 n1 = default_seed 1234567890 n2)%Z.
Proof. exists 1000000%Z, 1000001%Z. vm_compute. intuition congruence. Qed.
(** The sampler of thread 0 repeats the stream of the first default sampler. *)
Theorem C54_thread_zero_shares_seed_refuted now :
  (1000 <= now -> thread_seed now 0 = default_seed now 1)%Z.
Proof.
  intros Hn. unfold thread_seed, default_seed. rewrite Z.gtb_ltb.
  destruct (Z.ltb_spec now (1000 * 1)); [lia|reflexivity].
Qed.

Print Assumptions C03_uniform_in_unit_interval.
Print Assumptions C03_stream.
Print Assumptions C04_floating_point_is_exact.
Print Assumptions C04_doubles_in_unit_interval.
Print Assumptions C54_thread_seeds_distinct.
Print Assumptions C54_default_seeds_distinct.
Print Assumptions C54_default_seed_collision_refuted.
Print Assumptions C54_thread_zero_shares_seed_refuted.
