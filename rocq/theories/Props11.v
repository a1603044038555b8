(** Property theorems C57: threads that do not share contexts (vocabulary in Client.v, Trace.v). *)
From Coq Require Import List Arith ZArith Bool Lia SpecFloat.
From Verif Require Import Base Float Operation Tape AContext Methods Function Spec FloatInst Api Examples Concurrent ConcSpec
  Client Trace TraceFacts IsoMain.
Import ListNotations.

(** *** C57 A thread that keeps its contexts and variables to itself is not affected by others.
    In any reachable state of a process, thread [i] begins any program that chooses its API calls
    from the values, derivatives, tapes and panics it has seen.  Other threads do whatever they like
    at any time, except that they look up neither ids that have not been given out nor the contexts
    of thread [i].  What thread [i] returns is what the program returns when run alone in a fresh
    process. *)
Theorem C57_private_thread_as_if_alone :
  forall (S F : Type) (So : Fops S) (tof : S -> option F) (s0 : list (nat * move)) (g : sys S F) (i : nat)
    (p : client S F) (s : list (nat * move)) (g' : sys S F) (r : ret S F),
  play So tof sys0 s0 = Some g -> lookups_ok So tof given_out sys0 s0 ->
  i < g_n g -> idle g i -> private p -> carries_on i s ->
  lookups_ok So tof (not_of i (g_next g)) (start So tof g i p) s ->
  play So tof (start So tof g i p) s = Some g' ->
  t_code (g_thr g' i) = Some (Ret r) -> r = alone So tof p api0.
Proof. exact (fun S F So tof s0 g i p s g' r => private_as_alone So tof i s0 g p s g' r). Qed.
Print Assumptions C57_private_thread_as_if_alone.

(** In particular: a thread that tapes a function gets the tape that Function::tape records when
    nothing else happens. *)
Theorem C57_taping_in_any_thread :
  forall (F : Type) (Fo : Fops F) (f : func F) (x : list F) (t : tape F) (w : world F),
  fn_tape Fo f x world0 = Ok (t, w) ->
  exists ks, fn_calls Fo f x = Ok ks /\
    let p := calls ks (mkSeen None [] []) in
    forall (s0 : list (nat * move)) (g : sys F F) (i : nat) (s : list (nat * move)) (g' : sys F F) (r : ret F F),
    play Fo Some sys0 s0 = Some g -> lookups_ok Fo Some given_out sys0 s0 ->
    i < g_n g -> idle g i -> carries_on i s ->
    lookups_ok Fo Some (not_of i (g_next g)) (start Fo Some g i p) s ->
    play Fo Some (start Fo Some g i p) s = Some g' ->
    t_code (g_thr g' i) = Some (Ret r) -> r = RTape t.
Proof.
  intros F Fo f x t w E. destruct (fn_calls_ok Fo f x t w E) as (ks & s1 & Ek & Hh & Ht & HN).
  exists ks. split; [exact Ek|]. intros p s0 g i s g' r H0 L0 Hi Hd HC HL HP HR.
  rewrite (private_as_alone Fo Some i s0 g p s g' r); auto.
  - apply (calls_alone Fo ks s1 t Hh Ht).
  - apply (calls_private Fo ks api0 s1 Hh HN).
Qed.
Print Assumptions C57_taping_in_any_thread.

(** Thread 0 has created a context and spawned thread 1. *)
Definition ex_before : list (nat * @move spec_float) := (0, DoNew) :: repeat (0, Go) 6 ++ [(0, DoSpawn)].
(** Thread 1 tapes (x0, x1) -> (x0 * x1 + 3, |x0|) at (2, 3). *)
Definition ex_taping : client spec_float spec_float :=
  calls (match fn_calls d64 ex_f [lit 2; lit 3] with Ok ks => ks | Panic _ => [] end) (mkSeen None [] []).
(** Meanwhile thread 0 records on its own context and looks it up. *)
Definition ex_during : list (nat * @move spec_float) :=
  repeat (1, Go) 9 ++ [(0, DoVar (lit 5) (lit 0)); (0, DoIndep 0 0); (0, Go); (0, Go)] ++ repeat (1, Go) 7 ++
  [(0, Go); (0, Go); (0, DoOp Mul 1 (Some 1))] ++ repeat (0, Go) 6 ++ repeat (1, Go) 20 ++ repeat (0, Go) 3 ++
  [(0, DoLookup 1)] ++ repeat (0, Go) 5 ++ repeat (1, Go) 24.

(** The result of a finished program. *)
Definition result_of (i : nat) (o : option (sys spec_float spec_float)) : option (ret spec_float spec_float) :=
  match o with
  | Some g => match t_code (g_thr g i) with Some (Ret r) => Some r | _ => None end
  | None => None
  end.
Lemma result_ret i o r : result_of i o = Some r -> exists g, o = Some g /\ t_code (g_thr g i) = Some (Ret r).
Proof.
  unfold result_of. destruct o as [g|]; [|discriminate]. destruct (t_code (g_thr g i)) as [[]|] eqn:E; try discriminate.
  intros [= ->]. eauto.
Qed.

Definition ex_g : sys spec_float spec_float :=
  match play d64 Some sys0 ex_before with Some g => g | None => sys0 end.

Lemma ex_during_ok : forall g, lookups_ok d64 Some (not_of 1 2) g ex_during.
Proof.
  apply lookups_by. unfold ex_during. cbn [repeat app].
  repeat (apply Forall_cons; [cbn [snd]; intros c Hc g1; first [discriminate Hc | injection Hc as <-; left; apply le_n]|]).
  apply Forall_nil.
Qed.

Example C57_example :
  exists g' t w, play d64 Some sys0 ex_before = Some ex_g /\ lookups_ok d64 Some given_out sys0 ex_before /\
    1 < g_n ex_g /\ idle ex_g 1 /\ private ex_taping /\ carries_on 1 ex_during /\
    lookups_ok d64 Some (not_of 1 (g_next ex_g)) (start d64 Some ex_g 1 ex_taping) ex_during /\
    play d64 Some (start d64 Some ex_g 1 ex_taping) ex_during = Some g' /\
    fn_tape d64 ex_f [lit 2; lit 3] world0 = Ok (t, w) /\ t_code (g_thr g' 1) = Some (Ret (RTape t)).
Proof.
  assert (exists t w, fn_tape d64 ex_f [lit 2; lit 3] world0 = Ok (t, w) /\
    result_of 1 (play d64 Some (start d64 Some ex_g 1 ex_taping) ex_during) = Some (RTape t)) as (t & w & E2 & E1).
  { eexists _, _. split; [vm_compute; reflexivity|]. vm_compute. reflexivity. }
  apply result_ret in E1 as (g' & E1 & E3).
  exists g', t, w. split.
  { unfold ex_g. destruct (play d64 Some sys0 ex_before) eqn:E; [reflexivity|].
    assert (match play d64 Some sys0 ex_before with Some _ => true | None => false end = true) as H
      by (vm_compute; reflexivity). rewrite E in H. discriminate. }
  split; [apply lookups_by; repeat constructor; cbn; discriminate|].
  split; [vm_compute; auto|]. split; [vm_compute; reflexivity|].
  split.
  { unfold ex_taping. destruct (fn_calls_ok d64 _ _ _ _ E2) as (ks & s1 & -> & Hh & _ & HN).
    apply (calls_private d64 ks api0 s1 Hh HN). }
  split; [repeat constructor; cbn; congruence|].
  split; [|auto].
  replace (g_next ex_g) with 2 by (vm_compute; reflexivity).
  generalize (start d64 Some ex_g 1 ex_taping). apply ex_during_ok.
Qed.

(** The condition on lookups is needed: if thread 0 guesses the id of thread 1's context it can
    record there. *)
Definition ex_spawn : list (nat * @move spec_float) := [(0, DoSpawn); (0, DoVar (lit 7) (lit 0))].
Definition ex_intruder : list (nat * @move spec_float) :=
  repeat (1, Go) 8 ++ (0, DoLookup 1) :: repeat (0, Go) 5 ++ (0, DoIndep 0 0) :: repeat (0, Go) 4 ++ repeat (1, Go) 49.
Theorem C57_guessed_id_refuted :
  exists g g' r, play d64 Some sys0 ex_spawn = Some g /\ carries_on 1 ex_intruder /\
    play d64 Some (start d64 Some g 1 ex_taping) ex_intruder = Some g' /\
    t_code (g_thr g' 1) = Some (Ret r) /\ r <> alone d64 Some ex_taping api0.
Proof.
  assert (exists g r, play d64 Some sys0 ex_spawn = Some g /\
    result_of 1 (play d64 Some (start d64 Some g 1 ex_taping) ex_intruder) = Some r /\ r <> alone d64 Some ex_taping api0)
    as (g & r & E0 & E1 & E2).
  { eexists _, _. split; [reflexivity|]. split; [vm_compute; reflexivity|]. vm_compute. discriminate. }
  apply result_ret in E1 as (g' & E1 & E3).
  exists g, g', r. split; [exact E0|]. split; [repeat constructor; cbn; congruence|auto].
Qed.
Print Assumptions C57_guessed_id_refuted.
