(** Chains of functions as they are written. *)
From Coq Require Import List Arith ZArith Bool Lia.
From Verif Require Import Base Float Operation Tape AContext Methods Function Spec Param Instances
  FunctionFacts ReplayFacts Replay2 ApiFacts3 RecordFacts Source SourceSpec SourceFacts SourceMain.
Import ListNotations.

Section SourceChain.
Context {F D : Type} (Fo : Fops F) (conv : D -> F).

(** The links of a chain with [n] inputs; each takes the results of the one before. *)
Fixpoint links (n : nat) (fs : list (source F D)) : list (func F) :=
  match fs with
  | [] => []
  | f :: fs' => written conv n f :: links (length (snd f)) fs'
  end.
(** The functions one after the other on plain numbers, with the outcomes of the tests of each. *)
Fixpoint plain_chain (fs : list (source F D)) (x : list F) : option (list F * list (list bool)) :=
  match fs with
  | [] => Some (x, [])
  | f :: fs' =>
      match plain Fo conv f x with
      | Some (y, d) => match plain_chain fs' y with Some (z, ds) => Some (z, d :: ds) | None => None end
      | None => None
      end
  end.

Lemma plain_length f x y d : plain Fo conv f x = Some (y, d) -> length y = length (snd f).
Proof.
  unfold plain. destruct (p_stmt _ _ (fst f) x) as [[vs b]|]; [|discriminate]. destruct (p_vars vs (snd f)) as [ys|] eqn:E; [|discriminate].
  intros [= <- _]. eapply vars_len; eauto.
Qed.

Lemma v_chain_cons g fs x : v_eval Fo (Chain (g :: fs)) x = (y <- v_eval Fo g x ;; v_eval Fo (Chain fs) y).
Proof.
  unfold v_eval. cbn [feval]. unfold mbind. destruct (feval Fo _ _ _ g x tt) as [[y []]|]; reflexivity.
Qed.

Lemma chain_v_eval fs : forall x, match plain_chain fs x with
  | Some (z, _) => v_eval Fo (Chain (links (length x) fs)) x = Ok z
  | None => exists p, v_eval Fo (Chain (links (length x) fs)) x = Panic p
  end.
Proof.
  induction fs as [|f fs IH]; intros x; [reflexivity|]. cbn [links plain_chain]. rewrite v_chain_cons.
  pose proof (written_eval Fo conv f x) as W. destruct (plain Fo conv f x) as [[y d]|] eqn:P; [|destruct W as [p ->]; cbn; eauto].
  rewrite W. cbn [bind]. rewrite <- (plain_length _ _ _ _ P). specialize (IH y). destruct (plain_chain fs y) as [[z ds]|]; exact IH.
Qed.

Lemma chain_path fs : forall x x' z z' ds, length x' = length x ->
  plain_chain fs x = Some (z, ds) -> plain_chain fs x' = Some (z', ds) ->
  same_path Fo (Chain (links (length x) fs)) x x'.
Proof.
  unfold same_path. induction fs as [|f fs IH]; intros x x' z z' ds L P P'; [reflexivity|]. cbn [links plain_chain] in *.
  destruct (plain Fo conv f x) as [[y d]|] eqn:E; [|discriminate]. destruct (plain Fo conv f x') as [[y' d']|] eqn:E'; [|discriminate].
  destruct (plain_chain fs y) as [[u us]|] eqn:Q; [|discriminate]. destruct (plain_chain fs y') as [[u' us']|] eqn:Q'; [|discriminate].
  injection P as <- <-. injection P' as <- <- <-.
  pose proof (written_eval Fo conv f x) as W. rewrite E in W. pose proof (written_eval Fo conv f x') as W'. rewrite E', L in W'.
  specialize (IH y y' _ _ _ ltac:(rewrite (plain_length _ _ _ _ E), (plain_length _ _ _ _ E'); auto) Q Q').
  rewrite (plain_length _ _ _ _ E) in IH. cbn [resolve_f] in *. injection IH as IH. rewrite W, W'. apply f_equal.
  apply f_equal2; [|exact IH]. unfold written. cbn [resolve_f]. f_equal. eapply same_decisions; eauto.
Qed.

Theorem chain_records fs x w :
  (exists t w', fn_tape Fo (Chain (links (length x) fs)) x w = Ok (t, w')) <-> (exists z ds, plain_chain fs x = Some (z, ds)).
Proof.
  pose proof (chain_v_eval fs x) as V. pose proof (fn_tape_total Fo (Chain (links (length x) fs)) x w) as T.
  destruct (plain_chain fs x) as [[z ds]|].
  - rewrite V in T. split; eauto.
  - destruct V as [p V]. rewrite V in T. split; [intros (t & w' & E); congruence|intros (z & ds & E); discriminate].
Qed.

Theorem chain_replays fs x x' z z' ds w : length x' = length x -> plain_chain fs x = Some (z, ds) -> plain_chain fs x' = Some (z', ds) ->
  exists t w' t', fn_tape Fo (Chain (links (length x) fs)) x w = Ok (t, w') /\ tape_y t = Ok z /\ tape_zero_order Fo t x' = Ok t' /\ tape_y t' = Ok z'.
Proof.
  intros L P P'. pose proof (chain_v_eval fs x) as V. rewrite P in V. pose proof (chain_v_eval fs x') as V'. rewrite P', L in V'.
  pose proof (fn_tape_total Fo (Chain (links (length x) fs)) x w) as T. rewrite V in T. destruct T as (t & w' & T).
  destruct (replay_same_path Fo _ _ _ _ _ x' T L) as (t' & y2 & A & B & C); [eapply chain_path; eauto|].
  destruct (fn_tape_fresh Fo _ _ _ _ _ T) as (_ & (y0 & V0 & Y0 & _) & _).
  exists t, w', t'. repeat split; auto; congruence.
Qed.

Theorem chain_evaluates fs x w z :
  eval_float Fo (Chain (links (length x) fs)) x w = Ok (z, w) <-> exists ds, plain_chain fs x = Some (z, ds).
Proof.
  pose proof (chain_v_eval fs x) as V. rewrite eval_float_v. destruct (plain_chain fs x) as [[u ds]|].
  - rewrite V. cbn. split; [intros [= <-]; eauto|intros (? & [= <- _]); auto].
  - destruct V as [p ->]. cbn. split; [discriminate|intros (? & ?); discriminate].
Qed.

(** The statements of the functions executed one function after the other, with any variable type *)
Fixpoint x_chain {V St : Type} (fop : OpCode -> V -> option V -> M St V) (cst : F -> V) (val : V -> F) (fs : list (source F D)) (env : list V) : M St (list V) :=
  match fs with
  | [] => mret env
  | f :: fs' => r <~ x_run Fo conv fop cst val f env ;; x_chain fop cst val fs' r
  end.

Lemma run_length {V St} (fop : OpCode -> V -> option V -> M St V) cst val f env s r s' :
  x_run Fo conv fop cst val f env s = Ok (r, s') -> length r = length (snd f).
Proof.
  unfold x_run, mbind. destruct (x_stmt _ _ _ _ _ (fst f) env s) as [[vs w1]|]; [|discriminate]. intros E.
  revert w1 r E. induction (snd f) as [|a l IH]; cbn; intros w1 r E; [now injection E as <- _|].
  unfold mbind, var in E. destruct (nth_error vs a); [|discriminate]. cbn in E. destruct (x_outs vs l w1) as [[r' w3]|] eqn:E2; [|discriminate].
  injection E as <- <-. cbn. f_equal. eapply IH; eauto.
Qed.

Lemma written_feval {V St} (fop : OpCode -> V -> option V -> M St V) cst val f env s r s' :
  feval Fo fop cst val (written conv (length env) f) env s = Ok (r, s') <-> x_run Fo conv fop cst val f env s = Ok (r, s').
Proof.
  unfold written. cbn [feval]. unfold mbind, mlift, assert. rewrite Nat.eqb_refl. cbn [bind]. rewrite run_translate.
  destruct (x_run _ _ _ _ _ f env s) as [[u s2]|] eqn:E; [|split; discriminate].
  rewrite (run_length _ _ _ _ _ _ _ _ E), Nat.eqb_refl. reflexivity.
Qed.

Lemma feval_chain_cons {V St} (fop : OpCode -> V -> option V -> M St V) cst val g gs env s :
  feval Fo fop cst val (Chain (g :: gs)) env s = (r <~ feval Fo fop cst val g env ;; feval Fo fop cst val (Chain gs) r) s.
Proof. reflexivity. Qed.

Theorem chain_feval {V St} (fop : OpCode -> V -> option V -> M St V) cst val fs : forall env s r s',
  feval Fo fop cst val (Chain (links (length env) fs)) env s = Ok (r, s') <-> x_chain fop cst val fs env s = Ok (r, s').
Proof.
  induction fs as [|f fs IH]; intros env s r s'; [reflexivity|]. cbn [links x_chain]. rewrite feval_chain_cons. unfold mbind.
  destruct (x_run Fo conv fop cst val f env s) as [[u s2]|] eqn:E.
  - rewrite (proj2 (written_feval fop cst val f env s u s2) E). rewrite <- (run_length _ _ _ _ _ _ _ _ E). apply IH.
  - destruct (feval Fo fop cst val (written conv (length env) f) env s) as [[u s2]|] eqn:E2; [|split; discriminate].
    apply written_feval in E2. congruence.
Qed.

Theorem chain_executes fs (x : list (AF F)) (w : world F) y w' :
  x_chain (from_op Fo Some) (af_const Fo) af_v fs x w = Ok (y, w') <-> eval Fo (Chain (links (length x) fs)) x w = Ok (y, w').
Proof. symmetry. apply chain_feval. Qed.
End SourceChain.
