(** Model of src/drivers/checkpointing.rs.
    usize and isize are 64 bits wide.  Arithmetic that would overflow panics (as in a debug build);
    the additions [offset + partial_cp], [last_cp_idx + current_i] and the isize subtractions
    [t - 1], [t - 2], [c - 1] .. [c - 3] are unchecked here: they stay below [nsteps + 1], which is
    checked, respectively above zero minus three. *)
From Coq Require Import List Arith ZArith Bool Lia.
From Verif Require Import Base AContext.
Import ListNotations.

Local Open Scope Z_scope.
Definition two63 : Z := 2 ^ 63.
Definition two64 : Z := 2 ^ 64.

(** [n as isize] for a usize, [n as usize] for an isize *)
Definition as_isize (n : Z) : Z := if n <? two63 then n else n - two64.
Definition as_usize (n : Z) : Z := if n <? 0 then n + two64 else n.
Definition uadd (a b : Z) : res Z := if a + b <? two64 then Ok (a + b) else Panic POverflow.
Definition usub (a b : Z) : res Z := if b <=? a then Ok (a - b) else Panic POverflow.

(** Binomial coefficients; num::integer::binomial on BigUint (checkpointing.rs:16) computes them
    without rounding or overflow. *)
Fixpoint binom (n k : nat) : Z :=
  match k, n with
  | O, _ => 1
  | S _, O => 0
  | S k', S n' => binom n' k' + binom n' k
  end.

(** checkpointing.rs:10-18 *)
Definition beta (c t : Z) : res Z :=
  if (c <=? 0) || (t <=? 0) then Ok 0
  else let b := binom (Z.to_nat (c + t)) (Z.to_nat c) in
       if b <? two64 then Ok b else Panic PUnwrap.

Section Checkpoint.
(** [est c r] is the number the floating point expression in checkpointing.rs:31-35 yields,
    after [ceil() as isize]; see [estimate] in CheckSpec.v. *)
Context (est : Z -> Z -> Z).

(** checkpointing.rs:36-38: [while r > beta(c, t) as isize { t += 1; }] *)
Fixpoint find_loop (fuel : nat) (c r t : Z) : res Z :=
  match fuel with
  | O => Panic PFuel
  | S fuel' =>
      b <- beta c t ;;
      if as_isize b <? r then
        if t + 1 <? two63 then find_loop fuel' c r (t + 1) else Panic POverflow
      else Ok t
  end.

(** checkpointing.rs:20-43 *)
Definition find_t (c r : Z) : res Z :=
  let c := as_isize c in
  let r := as_isize r in
  if c =? 1 then Ok (if 0 <? r then as_usize (r - 1) else 0)
  else
    t <- find_loop (Z.to_nat (r - est c r) + 2) c r (est c r) ;;
    b1 <- beta c (t - 1) ;;
    _ <- assert (as_isize b1 <? r) ;;
    b <- beta c t ;;
    _ <- assert (r <=? as_isize b) ;;
    Ok (as_usize t).

(** checkpointing.rs:45-58 *)
Definition next_checkpoint (c r : Z) : res Z :=
  t <- find_t c r ;;
  let t := as_isize t in
  let c := as_isize c in
  if (c <=? 0) || (r =? 0) then Ok 0
  else
    b1 <- beta c (t - 1) ;; b2 <- beta (c - 2) (t - 1) ;; s <- uadd b1 b2 ;;
    if r <=? s then beta c (t - 2)
    else
      b3 <- beta c t ;; b4 <- beta (c - 3) t ;; d <- usub b3 b4 ;;
      if d <=? r then beta c (t - 1)
      else
        b5 <- beta (c - 1) (t - 1) ;; b6 <- beta (c - 2) (t - 1) ;;
        r' <- usub r b5 ;; usub r' b6.

Local Close Scope Z_scope.

(** Subtraction of usize values kept as [nat] *)
Definition nsub (a b : nat) : res nat := if b <=? a then Ok (a - b) else Panic POverflow.

(** State of the iterator [schedule] returns: [offset], [c_], [r_] (checkpointing.rs:61-63) *)
Definition sstate : Type := nat * nat * nat.
Definition sched_init (c r : nat) : sstate := (0, c, r).

(** checkpointing.rs:64-83: one call of [next()]; [r] is the captured parameter *)
Definition sched_next (r : nat) (s : sstate) : res (option (nat * sstate)) :=
  let '(offset, c_, r_) := s in
  if (1 <? r_) && (0 <? c_) then
    partial_cp <- (if r_ - 1 <=? c_ then Ok 1
                   else if c_ =? 1 then Ok (r_ - 1)
                   else if 2 <? r_ then
                     cp <- next_checkpoint (Z.of_nat c_) (Z.of_nat r_) ;;
                     Ok (Nat.min (Nat.max (Z.to_nat cp) 1) (r_ - 1))
                   else Ok 1) ;;
    let cp := offset + partial_cp in
    r_' <- nsub r cp ;;
    Ok (Some (cp, (cp, c_ - 1, r_')))
  else Ok None.

(** [schedule(c, r).collect()] *)
Fixpoint sched_collect (fuel r : nat) (s : sstate) : res (list nat) :=
  match fuel with
  | O => Panic PFuel
  | S fuel' =>
      nxt <- sched_next r s ;;
      match nxt with
      | None => Ok []
      | Some (cp, s') => l <- sched_collect fuel' r s' ;; Ok (cp :: l)
      end
  end.
Definition schedule (c r : nat) : res (list nat) := sched_collect (S c) r (sched_init c r).

Section Reverse.
(** [T], [R] and the three closures of [reverse_sequence]; [St] is whatever state they act on. *)
Context {T R St : Type} (forward : T -> M St T) (reverse : T -> R -> M St R) (identity : T -> M St R).

(** checkpointing.rs:130-132: [for _ in current_i..cp_idx { current_x = forward(current_x); }] *)
Fixpoint advance (k : nat) (x : T) : M St T :=
  match k with
  | O => mret x
  | S k' => y <~ forward x ;; advance k' y
  end.

(** The deque of checkpoints; only its back is used, which is the head of this list. *)
Definition cps : Type := list (nat * T).

(** checkpointing.rs:126-136.  The number of stored checkpoints after each push is added to [peak],
    a ghost value that influences nothing. *)
Fixpoint run_schedule (fuel r base : nat) (s : sstate) (current_i : nat) (current_x : T)
  (checkpoints : cps) (peak : list nat) : M St (cps * list nat) :=
  match fuel with
  | O => mlift (Panic PFuel)
  | S fuel' =>
      nxt <~ mlift (sched_next r s) ;;
      match nxt with
      | None => mret (checkpoints, peak)
      | Some (cp_idx, s') =>
          current_x <~ advance (cp_idx - current_i) current_x ;;
          let checkpoints := (base + cp_idx, current_x) :: checkpoints in
          run_schedule fuel' r base s' cp_idx current_x checkpoints (length checkpoints :: peak)
      end
  end.

(** checkpointing.rs:113-153; [r] decreases by one in every round *)
Fixpoint reverse_loop (ncheckpoints r : nat) (checkpoints : cps) (result : option R)
  (peak : list nat) : M St (R * list nat) :=
  match r with
  | O => res <~ mlift (unwrap result) ;; mret (res, peak)
  | S r' =>
      last <~ mlift (unwrap (hd_error checkpoints)) ;;
      let (last_cp_idx, last_cp) := (last : nat * T) in
      partial_r <~ mlift (nsub r last_cp_idx) ;;
      partial_c <~ mlift (nsub ncheckpoints (length checkpoints)) ;;
      cp <~ (if 0 <? partial_r
             then run_schedule (S partial_c) partial_r last_cp_idx (sched_init partial_c partial_r)
                    0 last_cp checkpoints peak
             else mret (checkpoints, peak)) ;;
      let (checkpoints, peak) := (cp : cps * list nat) in
      back <~ mlift (unwrap (hd_error checkpoints)) ;;
      let (cp_idx, cp) := (back : nat * T) in
      _ <~ mlift (assert (cp_idx =? r - 1)) ;;
      result <~ match result with
                | Some acc => reverse cp acc
                | None => identity cp
                end ;;
      reverse_loop ncheckpoints r' (tl checkpoints) (Some result) peak
  end.

(** checkpointing.rs:87-156, with the ghost list of checkpoint counts *)
Definition reverse_sequence_log (x : T) (nsteps ncheckpoints : nat) : M St (R * list nat) :=
  _ <~ mlift (assert (2 <=? ncheckpoints)) ;;
  _ <~ mlift (if (Z.of_nat nsteps + 1 <? two64)%Z then Ok tt else Panic POverflow) ;;
  reverse_loop ncheckpoints (nsteps + 1) [(0, x)] None [1].

(** checkpointing.rs:87-156 *)
Definition reverse_sequence (x : T) (nsteps ncheckpoints : nat) : M St R :=
  r <~ reverse_sequence_log x nsteps ncheckpoints ;; mret (fst r).

End Reverse.
End Checkpoint.
