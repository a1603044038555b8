(** The library's unit tests of the checkpointing schedule, for all inputs. *)
From Coq Require Import List Arith ZArith Bool Lia.
From Verif Require Import Base AContext Checkpoint CheckSpec CheckRun CheckMain UnitTests.
Import ListNotations.

Section Consistency.
Context (est : Z -> Z -> Z).
Lemma next_shift r f o c r_ : f <= r ->
  sched_next est r (o + f, c, r_) =
  match sched_next est (r - f) (o, c, r_) with
  | Ok None => Ok None
  | Ok (Some (cp, (o', c', r'))) => Ok (Some (cp + f, (o' + f, c', r')))
  | Panic p => Panic p
  end.
Proof.
  intros Hf. unfold sched_next. destruct ((1 <? r_) && (0 <? c)); auto.
  match goal with |- bind ?X _ = _ => destruct X as [p|]; cbn [bind]; auto end.
  unfold nsub. replace (o + f + p) with (o + p + f) by lia.
  destruct (Nat.leb_spec (o + p + f) r); destruct (Nat.leb_spec (o + p) (r - f)); try lia; cbn [bind]; auto.
  do 4 f_equal. lia.
Qed.
Lemma collect_shift r f fuel : f <= r -> forall o c r_,
  sched_collect est fuel r (o + f, c, r_) =
  match sched_collect est fuel (r - f) (o, c, r_) with Ok l => Ok (map (fun cp => cp + f) l) | Panic p => Panic p end.
Proof.
  intros Hf. induction fuel as [|fuel IH]; intros o c r_; cbn [sched_collect]; auto.
  rewrite next_shift by auto. destruct (sched_next est (r - f) (o, c, r_)) as [[(cp & (o' & c') & r')|]|]; cbn [bind]; auto.
  rewrite IH. destruct (sched_collect est fuel (r - f) (o', c', r')); cbn [bind]; auto.
Qed.

Theorem schedule_consistent c r f l : schedule est (S c) r = Ok (f :: l) ->
  exists l', schedule est c (r - f) = Ok l' /\ l = map (fun cp => cp + f) l'.
Proof.
  unfold schedule, sched_init.
  assert (forall fuel s, sched_collect est (S fuel) r s = (nxt <- sched_next est r s ;;
    match nxt with None => Ok [] | Some (cp, s') => l <- sched_collect est fuel r s' ;; Ok (cp :: l) end)) as U by reflexivity.
  rewrite (U (S c)).
  destruct (sched_next est r (0, S c, r)) as [[(cp & s')|]|] eqn:E; cbn [bind]; try discriminate.
  assert (cp <= r /\ s' = (0 + cp, c, r - cp)) as [Hc ->].
  { unfold sched_next in E. destruct ((1 <? r) && (0 <? S c)); [|discriminate].
    match type of E with bind ?X _ = _ => destruct X as [p|]; cbn [bind] in E; [|discriminate] end.
    unfold nsub in E. destruct (Nat.leb_spec (0 + p) r); cbn [bind] in E; [|discriminate].
    injection E as <- <-. cbn. split; [lia|]. do 2 f_equal; lia. }
  rewrite collect_shift by auto.
  destruct (sched_collect est (S c) (r - cp) (0, c, r - cp)) as [l'|] eqn:E2; cbn [bind]; intros [= <- <-]. exists l'. auto.
Qed.
End Consistency.

Lemma gauss_fold n : forall x, exists y, reverse_fold (fun x => Ok (x + 1)) (fun x y => Ok (x + y)) (fun x => Ok x) n x = Ok y /\
  2 * y = (n + 1) * (2 * x + n).
Proof.
  induction n as [|n IH]; intros x; cbn [reverse_fold].
  - exists x. split; auto. lia.
  - cbn [bind]. destruct (IH (x + 1)) as (y & E & H). rewrite E. cbn [bind]. eexists. split; [reflexivity|]. nia.
Qed.

Theorem gauss_sum_right est r c : accurate est (Z.of_nat r + 1) -> (Z.of_nat r + 1 <= 2 ^ 32)%Z -> 2 <= c ->
  gauss_sum est r c = Ok (r * (r + 1) / 2, tt).
Proof.
  intros HA HR Hc. unfold gauss_sum.
  assert (acts (fun _ : unit => True) (fun x s => Ok (x + 1, s)) (fun x => Ok (x + 1))) as A1 by (intros a s _; eauto).
  assert (acts (fun _ : unit => True) (fun x s => Ok (x, s)) (fun x : nat => Ok x)) as A3 by (intros a s _; eauto).
  assert (acts2 (fun _ : unit => True) (fun x y s => Ok (x + y, s)) (fun x y => Ok (x + y))) as A2 by (intros a s _; eauto).
  pose proof (reverse_sequence_spec est _ _ _ _ _ _ _ A1 A2 A3 r c HA HR Hc 0 tt I) as H. cbn beta in H.
  destruct (gauss_fold r 0) as (y & E & Hy). rewrite E in H. destruct H as (s' & H & _). rewrite H. destruct s'.
  do 2 f_equal. apply (Nat.div_unique _ _ _ 0); lia.
Qed.
