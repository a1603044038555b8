(** Example functions used to show that the hypotheses of the theorems can be met. *)
From Coq Require Import List Arith ZArith Bool Lia SpecFloat.
From Verif Require Import Base Float Operation Tape AContext Methods Function Spec Api FloatInst Replay2.
Import ListNotations.

(** f(x0, x1) = (x0 * x1 + 3, |x0|) *)
Definition ex_body : prog spec_float :=
  Let2 BMul 0 1 (LetC (lit 3) (Let2 BAdd 2 3 (Let1 UAbs 0 (Ret [4; 5])))).
Definition ex_f : func spec_float := AdvFn 2 2 ex_body.

(** The same twice in a row, as a chain. *)
Definition ex_chain : func spec_float := Chain [ex_f; Chain [ex_f]].

(** f(x) = if x < 0 then -x else x, by inspecting the value *)
Definition ex_branch (Fo : Fops spec_float) : func spec_float :=
  Simple 1 1 (Inspect 0 (fun v => if f_ltb Fo v (lit 0) then Let1 UNeg 0 (Ret [1]) else Ret [0])).

(** f(x) = x + acos(-1) *)
Definition ex_acos : func spec_float :=
  Simple 1 1 (LetC (lit (-1)) (Let1 UAcos 1 (Let2 BAdd 0 2 (Ret [3])))).

(** Two contexts, one variable in each and a detached variable: *)
Definition ex_two : list (call spec_float) :=
  [CNew; CNew; CVar (lit 1) (lit 0); CVar (lit 2) (lit 0); CVar (lit 3) (lit 0);
   CIndep 0 0; CIndep 1 1].

(** Run a list of calls; [None] if one cannot be written. *)
Fixpoint play (Fo : Fops spec_float) (s : api spec_float spec_float) (ks : list (call spec_float))
  : option (api spec_float spec_float) :=
  match ks with
  | [] => Some s
  | k :: ks' => match step Fo Some s k with Some (s', _) => play Fo s' ks' | None => None end
  end.

Lemma history_cons (Fo : Fops spec_float) s k s1 r ks s2 :
  wf_call k -> step Fo Some s k = Some (s1, r) -> history Fo Some s1 ks s2 ->
  history Fo Some s (k :: ks) s2.
Proof.
  intros W E H. induction H as [|ks s' k' s'' r' H IH Wk Hs].
  - apply (hist_step Fo Some s [] s k s1 r); auto. constructor.
  - apply (hist_step Fo Some s (k :: ks) s' k' s'' r'); auto.
Qed.

Lemma play_history Fo ks : forall s s',
  (forall k, In k ks -> wf_call k) -> play Fo s ks = Some s' -> history Fo Some s ks s'.
Proof.
  induction ks as [|k ks IH]; intros s s' W; cbn [play].
  - intros [= ->]. constructor.
  - destruct (step Fo Some s k) as [[s1 r]|] eqn:E; [|discriminate]. intros H.
    eapply history_cons; eauto; [apply W; cbn; auto|]. apply IH; auto. intros k' H'.
    apply W; cbn; auto.
Qed.

(** The state after [ex_two]. *)
Definition ex_state : api spec_float spec_float :=
  match play d64 api0 ex_two with Some s => s | None => api0 end.

Lemma ex_state_play : play d64 api0 ex_two = Some ex_state.
Proof. vm_compute. reflexivity. Qed.

Lemma ex_state_reachable : reachable d64 Some ex_state.
Proof.
  exists ex_two. apply play_history; [|exact ex_state_play].
  intros k [<-|[<-|[<-|[<-|[<-|[<-|[<-|[]]]]]]]]; exact I.
Qed.

(** x + acos(-1) at x = 1 in any arithmetic *)
Lemma acos_generic (Fo : Fops spec_float) : exists t w' outs,
    fn_tape Fo ex_acos [lit 1] world0 = Ok (t, w') /\
    eval Fo ex_acos (pairs [lit 1] [lit 1]) world0 = Ok (outs, world0) /\
    map af_dv outs = [f_add Fo (lit 1) (f_div Fo (f_neg Fo (f_zero Fo))
      (f_sqrt Fo (f_sub Fo (f_one Fo) (f_powi Fo (lit (-1)) 2))))] /\
    tape_forward Fo t [lit 1] = Ok [f_add Fo (lit 1) (f_zero Fo)].
Proof.
  intros. eexists _, _, _. split; [vm_compute; reflexivity|]. split; [vm_compute; reflexivity|].
  split; vm_compute; reflexivity.
Qed.

(** Whatever the math library: acos(-1) has derivative -0/sqrt(1-(-1)^2) = NaN in tapeless mode. *)
Lemma acos_witness : forall T : libm, exists t w' outs,
    fn_tape (f64ops T) ex_acos [lit 1] world0 = Ok (t, w') /\
    eval (f64ops T) ex_acos (pairs [lit 1] [lit 1]) world0 = Ok (outs, world0) /\
    map af_dv outs = [S754_nan] /\ tape_forward (f64ops T) t [lit 1] = Ok [lit 1].
Proof.
  intros T. destruct (acos_generic (f64ops T)) as (t & w' & outs & H1 & H2 & H3 & H4).
  exists t, w', outs. split; [exact H1|]. split; [exact H2|].
  rewrite H3, H4. split; vm_compute; reflexivity.
Qed.
