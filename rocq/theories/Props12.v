(** Property theorems C34, C36, C39, C41 with the estimate of the schedule evaluated in binary64
    ([est64 T], EstF64.v), T being the platform's libm.  [libm_ok T]: its exp and pow are within
    2^-42 of the true values, relatively. *)
From Coq Require Import Reals Lra List Arith ZArith Bool Lia SpecFloat.
From Verif Require Import Base Float FloatInst RealInst AContext Function Matrix Checkpoint CheckSpec CheckFacts
  CheckRun CheckLoop CheckMain CheckGen GenJac GenSpec GenMain EstF64.
Import ListNotations.

Lemma est64_upto T N : libm_ok T -> (N <= 2 ^ 32)%Z -> accurate (est64 T) N.
Proof. intros H L c r H1 H2 H3. apply (est64_accurate T H); lia. Qed.

(** *** C39 The estimate in binary64 is within one half of the real number. *)
Theorem C39_estimate_accurate_in_binary64 :
  forall T, libm_ok T -> accurate (est64 T) (2 ^ 32).
Proof. exact est64_accurate. Qed.
Print Assumptions C39_estimate_accurate_in_binary64.

Theorem C39_schedule_never_panics_in_binary64 :
  forall T c r, libm_ok T -> (Z.of_nat r <= 2 ^ 32)%Z ->
  exists l, schedule (est64 T) c r = Ok l.
Proof. exact (fun T c r H L => schedule_never_panics (est64 T) c r (est64_upto T _ H L) L). Qed.
Print Assumptions C39_schedule_never_panics_in_binary64.

(** A correctly rounded libm is one; a libm whose pow is constantly 8 is not, and with it
    the assertion of find_t fails. *)
Example C39_example_libm : libm_ok libm_cr.
Proof. exact libm_cr_ok. Qed.
Definition libm_bad : libm :=
  mkLibm (fun x => x) (fun x => x) (fun x => x) (fun _ => half64) (fun x => x) (fun x => x)
         (fun x => x) (fun x => x) (fun _ _ => sf_of_Z 8).
Example C39_example_binary64 : est64 libm_bad 3 100 = 9%Z /\ find_t (est64 libm_bad) 3 100 = Panic PAssert.
Proof. split; vm_compute; reflexivity. Qed.

(** *** C36 reverse_sequence computes the reverse fold. *)
Theorem C36_reverse_fold_in_binary64 :
  forall (L : libm) (T R St : Type)
    (forward : T -> M St T) (reverse : T -> R -> M St R) (identity : T -> M St R)
    (fw : T -> res T) (rv : T -> R -> res R) (id : T -> res R) (I : St -> Prop),
  libm_ok L -> acts I forward fw -> acts2 I reverse rv -> acts I identity id ->
  forall n c, (Z.of_nat n + 1 <= 2 ^ 32)%Z -> (2 <= c)%nat ->
  acts I (fun x => reverse_sequence (est64 L) forward reverse identity x n c) (reverse_fold fw rv id n).
Proof.
  intros L T R St forward reverse identity fw rv id I HL H1 H2 H3 n c Hn Hc.
  apply reverse_sequence_spec; auto. apply est64_upto; auto.
Qed.
Print Assumptions C36_reverse_fold_in_binary64.

(** *** C41 With two or more checkpoints the driver returns, and no other way of visiting the states
    with at most c of them in memory takes fewer forward calls. *)
Theorem C41_fewest_in_binary64 :
  forall (L : libm) (T R : Type) (fw : T -> T) (rv : T -> R -> R) (id : T -> R) x n c,
  libm_ok L -> (Z.of_nat n + 1 <= 2 ^ 32)%Z -> (2 <= c)%nat ->
  exists y a b d, counted (est64 L) fw rv id x n c = Ok (y, (a, b, d)) /\
    reverses c ([0], n + 1)%nat a /\ forall a', reverses c ([0], n + 1)%nat a' -> (a <= a')%nat.
Proof.
  intros L T R fw rv id x n c HL Hn Hc.
  pose proof (est64_upto L _ HL Hn) as HA.
  destruct (counted_total (est64 L) fw rv id x n c HA Hn Hc) as (y & [[a b] d] & E).
  exists y, a, b, d. split; [exact E|]. eapply counted_fewest; eauto.
Qed.
Print Assumptions C41_fewest_in_binary64.

(** *** C34 The chain driver returns the composition. *)
Theorem C34_chain_in_binary64 :
  forall red (L : libm) (c : func R) x dx k w,
  libm_ok L -> (Z.of_nat (chain_len c) + 1 <= 2 ^ 32)%Z -> (2 <= k)%nat ->
  match compose red (fn_iter c) x dx with
  | Ok G => exists w', generalized_jacobian_chain Rops red (est64 L) c x dx (Some k) w = Ok (G, w')
  | Panic p => generalized_jacobian_chain Rops red (est64 L) c x dx (Some k) w = Panic p
  end.
Proof. intros red L c x dx k w HL Hn. apply gj_chain_compose; auto. apply est64_upto; auto. Qed.
Print Assumptions C34_chain_in_binary64.
