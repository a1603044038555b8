(** No call takes more than 15 steps of its thread, so calls cannot keep each other busy for ever. *)
From Coq Require Import List Arith ZArith Bool Lia.
From Verif Require Import Base Float Operation Tape AContext AContextFacts Ffi FfiFacts Concurrent ConcSpec ConcFacts ConcInv ConcMain.
Import ListNotations.

Section Bound.
Context {S F : Type} (So : Fops S) (tof : S -> option F).
Notation code := (code S F). Notation sys := (sys S F).
Notation inv := (inv So tof).
Implicit Types (g : sys).

(** Every way through the call takes at most [n] steps. *)
Fixpoint within (n : nat) (c : code) {struct c} : Prop :=
  match n with
  | 0 => False
  | Datatypes.S n =>
    match c with
    | Ret _ => True
    | Fetch k | Alloc _ k => forall a, within n (k a)
    | MLock k | MInsert _ _ k | MRemove _ k | MUnlock k | Unlock _ _ k => within n k
    | MGet _ k => forall w, within n (k w)
    | Upgrade _ k | Decr _ k | Lock _ k => forall b, within n (k b)
    | Access _ _ k => forall c i, within n (k c i)
    end
  end.
Lemma within_S c : forall n, within n c -> within (Datatypes.S n) c.
Proof.
  induction c as [o|k IH|c k IH|k IH|c a k IH|c k IH|a k IH|k IH|a k IH|a k IH|a k IH|a f k IH|a p k IH];
    intros [|n] H; cbn in H; try contradiction; cbn; try (intros; apply IH; auto); auto.
Qed.
Lemma within_le n m c : n <= m -> within n c -> within m c.
Proof. induction 1; auto using within_S. Qed.

Lemma within_crit {B} n a (body : nat -> inner F -> res (B * inner F)) (k : res B -> code) :
  (forall r, within n (k r)) -> within (3 + n) (crit a body k).
Proof.
  intros H. cbn. intros [|]; cbn; [apply within_S, H|]. intros c i. destruct (body c i) as [[b i']|p]; cbn; apply H.
Qed.
Lemma within_drop n a k : within n k -> within (4 + n) (c_drop a k).
Proof. intros H. cbn. intros [|]; cbn; [exact H|]. do 3 apply within_S. exact H. Qed.
Lemma within_ensure n a x k : (forall r, within n (k r)) -> within (3 + n) (c_ensure tof a x k).
Proof.
  intros H. unfold c_ensure. destruct (af_ctx x) as [[c v]|]; [|apply within_crit; exact H]. do 3 apply within_S. apply H.
Qed.
Lemma within_ret n (r : ret S F) : within (1 + n) (Ret r).
Proof. exact Logic.I. Qed.

Lemma within_op oc x y : within 15 (c_from_op So tof oc x y).
Proof.
  unfold c_from_op. destruct (zero_order_value _ _ _ _) as [v|p]; [|apply within_ret].
  destruct (first_order_value _ _ _ _ _ _) as [dv|p]; [|apply within_ret].
  destruct (pick_cid x y) as [[c|]|p] eqn:Ep; [|apply within_ret|apply within_ret].
  cbn [c_from_cid within]. intros [a|]; cbn [within]; [|exact Logic.I]. intros [|]; cbn [within]; [|exact Logic.I].
  assert (forall n r, within (5 + n) (c_drop a (Ret r) : code)) as HD.
  { intros n r. apply within_le with 5; [lia|]. apply (within_drop 1). exact Logic.I. }
  assert (forall n i1 i2, within (8 + n) (crit a (body_record tof oc v (Some i1) i2) (fun r =>
    match r with Panic p => c_drop a (Ret (RPanic p)) | Ok vid => c_drop a (Ret (RVar (mkAF v dv (Some (c, vid))))) end))) as HL.
  { intros n i1 i2. apply (within_crit (5 + n)). intros [k|p]; apply HD. }
  destruct y as [y|]; [|apply (within_ensure 8); intros [i1|p]; [apply (HL 0)|apply (HD 3)]].
  destruct (af_ctx x) as [[c1 v1]|] eqn:Ex.
  - unfold c_ensure at 1. rewrite Ex. apply (within_ensure 8). intros [i2|p]; [apply (HL 0)|apply (HD 3)].
  - destruct (af_ctx y) as [[c2 v2]|] eqn:Ey; [|unfold pick_cid in Ep; rewrite Ex, Ey in Ep; discriminate].
    apply (within_ensure 8). intros [i1|p]; [|apply (HD 3)]. unfold c_ensure. rewrite Ey. apply (HL 0).
Qed.
Lemma within_tape a : within 15 (c_tape a : code).
Proof.
  apply within_le with 13; [lia|]. unfold c_tape.
  apply (within_crit 10). intros [x1|p]; [|apply within_ret].
  apply (within_crit 7). intros [x2|p]; [|apply within_ret].
  apply (within_crit 4). intros [x3|p]; [|apply within_ret].
  apply (within_crit 1). intros [x4|p]; apply within_ret.
Qed.

Definition thread_within (n : nat) (t : thread S F) : Prop :=
  match t_code t with None => True | Some c => within n c end.

Lemma begin_within g i c g' : begin g i c = Some g' -> within 15 c ->
  (forall j, thread_within 15 (g_thr g j)) -> forall j, thread_within 15 (g_thr g' j).
Proof.
  unfold begin. destruct (t_code (g_thr g i)); [discriminate|]. intros [= <-] W H j. cbn.
  unfold upd. destruct (j =? i); [exact W|apply H].
Qed.

(** One step of a thread. *)
Lemma micro_within g i g' n : micro g i = Some g' -> thread_within n (g_thr g i) ->
  0 < n /\ thread_within (n - 1) (g_thr g' i) /\ (forall j, j <> i -> g_thr g' j = g_thr g j) /\ g_n g' = g_n g.
Proof.
  unfold micro, thread_within. intros E W.
  destruct (t_code (g_thr g i)) as [c|]; [|discriminate]. destruct n as [|n]; [destruct c; contradiction|].
  replace (Datatypes.S n - 1) with n by lia. split; [lia|].
  destruct c as [o|k|c k|k|c a k|c k|a k|k|a k|a k|a k|a f k|a p k]; cbn in W;
    repeat match type of E with context [match ?x with _ => _ end] => destruct x; try discriminate end;
    injection E as <-; cbn; (split; [rewrite upd_eq; cbn; auto|split; [|reflexivity]]);
    intros j N; cbn; rewrite ?upd_ne by auto; reflexivity.
Qed.

Lemma step_within g i m g' : step So tof g i m = Some g' ->
  (forall j, thread_within 15 (g_thr g j)) -> forall j, thread_within 15 (g_thr g' j).
Proof.
  unfold step. destruct (i <? g_n g); [|discriminate]. intros E H.
  destruct m as [| |c|a|a x|a x|a|oc x y|v dv|x dv|a j|].
  - intros j. destruct (micro_within g i g' 15 E (H i)) as (_ & W & O & _).
    destruct (Nat.eq_dec j i) as [->|N]; [|rewrite O by auto; apply H].
    unfold thread_within in *. destruct (t_code (g_thr g' i)); auto. eapply within_le; [|exact W]. lia.
  - eapply begin_within; eauto. cbn. auto.
  - eapply begin_within; eauto. cbn. intros [a|]; cbn; auto. intros [|]; cbn; auto.
  - destruct (has _ _); [|discriminate]. eapply begin_within; eauto. apply within_le with 5; [lia|]. apply (within_drop 1). exact Logic.I.
  - destruct (nth_error _ _); [|discriminate]. destruct (has _ _); [|discriminate]. eapply begin_within; eauto.
    apply within_le with 4; [lia|]. apply (within_crit 1). intros [|]; exact Logic.I.
  - destruct (nth_error _ _); [|discriminate]. destruct (has _ _); [|discriminate]. eapply begin_within; eauto.
    apply within_le with 4; [lia|]. apply (within_crit 1). intros [|]; exact Logic.I.
  - destruct (has _ _); [|discriminate]. eapply begin_within; eauto. apply within_tape.
  - destruct (right_arity _ _); [|discriminate]. destruct (nth_error _ _); [|discriminate].
    destruct y as [y|]; [destruct (nth_error _ _); [|discriminate]|]; (eapply begin_within; [exact E|apply within_op|exact H]).
  - destruct (t_code (g_thr g i)); [discriminate|]. injection E as <-. exact H.
  - destruct (t_code (g_thr g i)); [discriminate|]. destruct (nth_error _ _); [|discriminate]. injection E as <-. exact H.
  - destruct (t_code (g_thr g i)) eqn:E1; [discriminate|]. destruct (t_code (g_thr g j)) eqn:E2; [discriminate|].
    repeat match type of E with context [if ?b then _ else _] => destruct b; try discriminate end.
    injection E as <-. intros l. cbn. unfold upd. destruct (l =? j); [exact Logic.I|]. destruct (l =? i); [exact Logic.I|apply H].
  - repeat match type of E with context [match ?x with _ => _ end] => destruct x; try discriminate end.
    injection E as <-. intros l. cbn. first [exact (H l)|unfold upd; destruct (_ =? _); [exact Logic.I|apply H]].
Qed.

Lemma play_within s : forall g g', play So tof g s = Some g' ->
  (forall j, thread_within 15 (g_thr g j)) -> forall j, thread_within 15 (g_thr g' j).
Proof.
  induction s as [|[i m] s IH]; cbn; intros g g' P H; [injection P as <-; exact H|].
  destruct (step So tof g i m) as [g1|] eqn:E; [|discriminate]. eapply IH; [exact P|]. eapply step_within; eauto.
Qed.
Lemma reachable_within g : reachable So tof g -> forall j, thread_within 15 (g_thr g j).
Proof. intros [s P]. eapply play_within; [exact P|]. intros j. exact Logic.I. Qed.

(** ** Its own steps *)

Lemma own_bound i s : forall g g' n, inv g -> i < g_n g -> carries_on i s -> play So tof g s = Some g' ->
  thread_within n (g_thr g i) -> own_steps i s <= n.
Proof.
  unfold own_steps. induction s as [|[j m] s IH]; cbn; intros g g' n I Hi C P W; [lia|].
  destruct (step So tof g j m) as [g1|] eqn:E; [|discriminate]. inversion C as [|? ? [C1 C2] C3]; subst. cbn in *.
  pose proof (inv_step _ _ _ _ _ _ E I) as I1. pose proof (n_mono _ _ _ _ _ _ E) as Nm.
  destruct (Nat.eqb_spec j i) as [->|N].
  - rewrite C1 in E by auto. unfold step in E. apply Nat.ltb_lt in Hi. rewrite Hi in E. apply Nat.ltb_lt in Hi.
    destruct (micro_within _ _ _ _ E W) as (Pn & W' & _ & _). cbn.
    specialize (IH g1 g' (n - 1) I1 ltac:(lia) C3 P W'). lia.
  - apply (IH g1 g' n); auto; [lia|]. rewrite (step_other _ _ _ _ _ _ _ E N C2 Hi). exact W.
Qed.

Theorem calls_are_short g i m g1 s g' : reachable So tof g -> step So tof g i m = Some g1 -> carries_on i s ->
  play So tof g1 s = Some g' -> own_steps i s <= 15.
Proof.
  intros R E C P. pose proof (reachable_inv So tof g R) as I.
  assert (i < g_n g) as Hi by (unfold step in E; destruct (Nat.ltb_spec i (g_n g)); [auto|discriminate]).
  pose proof (n_mono _ _ _ _ _ _ E). eapply (own_bound i s g1 g'); eauto.
  - eapply inv_step; eauto.
  - lia.
  - eapply step_within; eauto. apply reachable_within; auto.
Qed.

(** ** All threads *)
Fixpoint total (f : nat -> nat) (n : nat) : nat := match n with 0 => 0 | Datatypes.S n => f n + total f n end.
Lemma total_ext f h n : (forall i, i < n -> f i = h i) -> total f n = total h n.
Proof. induction n; cbn; intros H; [auto|]. rewrite H, IHn by (intros; auto with arith). reflexivity. Qed.
Lemma total_dec f i n : i < n -> 0 < f i -> total (upd f i (f i - 1)) n + 1 = total f n.
Proof.
  induction n as [|n IH]; intros Hi P; [lia|]. cbn. destruct (Nat.eq_dec i n) as [->|N].
  - rewrite upd_eq. rewrite (total_ext _ f n) by (intros j Hj; apply upd_ne; lia). lia.
  - rewrite upd_ne by lia. specialize (IH ltac:(lia) P). lia.
Qed.
Lemma total_const c n : total (fun _ => c) n = c * n.
Proof. induction n; cbn; lia. Qed.

Lemma go_bound s : forall g g' f, only_go s -> play So tof g s = Some g' -> (forall i, thread_within (f i) (g_thr g i)) ->
  length s <= total f (g_n g).
Proof.
  induction s as [|[i m] s IH]; cbn; intros g g' f O P W; [lia|]. inversion O as [|? ? O1 O2]; subst. cbn in O1. subst m.
  destruct (step So tof g i Go) as [g1|] eqn:E; [|discriminate].
  unfold step in E. destruct (Nat.ltb_spec i (g_n g)) as [Hi|]; [|discriminate].
  destruct (micro_within _ _ _ _ E (W i)) as (Pn & W' & O' & En).
  specialize (IH g1 g' (upd f i (f i - 1)) O2 P). rewrite En in IH.
  rewrite <- (total_dec f i (g_n g) Hi Pn). assert (length s <= total (upd f i (f i - 1)) (g_n g)); [|lia].
  apply IH. intros j. unfold upd at 1. destruct (Nat.eqb_spec j i) as [->|N]; [exact W'|]. rewrite O' by auto. apply W.
Qed.

Theorem no_livelock g s g' : reachable So tof g -> only_go s -> play So tof g s = Some g' ->
  length s <= 15 * g_n g /\ ((forall i, step So tof g' i Go = None) -> forall i, idle g' i).
Proof.
  intros R O P. split.
  - rewrite <- total_const. eapply go_bound; eauto. apply reachable_within; auto.
  - intros H i. pose proof (reachable_inv So tof g R) as I. pose proof (inv_play _ _ _ _ _ P I) as I'.
    unfold idle. destruct (t_code (g_thr g' i)) as [c|] eqn:E; [|reflexivity]. exfalso.
    destruct (no_deadlock So tof g' i I') as [(h & Eh)|(j & h & _ & _ & Eh)]; [unfold idle; congruence|..]; rewrite H in Eh; discriminate.
Qed.
End Bound.
