(** Proofs about the shortest-path example's loop. *)
From Coq Require Import Reals Lra List Arith ZArith NArith Bool Lia SpecFloat.
From Verif Require Import Base Float FloatInst Operation Tape AContext Methods Function Spec TapeFacts
  RealInst DerivSpec Param Instances FunctionFacts LinearFacts Matrix MatrixFacts Jacobian JacobianFacts
  AnfSpec RVec Checkpoint CheckSpec CheckMain GenJac GenSpec DescentSpec Descent DescentFacts Build PairBuild
  Programs FloydSpec FloydFacts FloydMain FloydPair FloydGraph FloydGrad FloydEnvelope FloydLoop FloydLoopSpec FloydTotal.
Import ListNotations.
Open Scope nat_scope.

Section Loop.
Context {F : Type} (Fo : Fops F).
Context (red : list (list (nat * list F)) -> list (nat * list F)) (est : Z -> Z -> Z).
Context (n nl : nat) (inf : F) (edges : list edge) (exits : list nat).
Context (val : list F -> F) (grad : list F -> list F).
Hypothesis Hval : forall q w, length q = nl -> exists w', fw_value Fo n nl inf edges exits q w = Ok (val q, w').
Hypothesis Hgrad : forall q w, length q = nl -> length (grad q) = nl /\
  exists w', fw_grad Fo red est n nl inf edges exits q w = Ok (grad q, w').

Lemma v_sub_minus u v : length u = length v -> v_sub Fo u v = Ok (minus Fo u v).
Proof. intros L. unfold v_sub. apply Nat.eqb_eq in L. rewrite L. reflexivity. Qed.
Lemma minus_length u v : length u = length v -> length (minus Fo u v) = length u.
Proof. intros L. unfold minus. rewrite map_length, combine_length. lia. Qed.

Lemma last_cons {A} (a b : A) l : last (a :: l) b = last l a.
Proof. revert a b. induction l as [|c l IH]; intros a b; auto. change (last (a :: c :: l) b) with (last (c :: l) b). now rewrite (IH c b), (IH c a). Qed.

Lemma loop_follows eps : forall fuel p a out w, length p = nl ->
  exists s fin w' ps, fw_loop Fo red est n nl inf edges exits eps fuel (mkFw p (grad p) a out) w = Ok ((s, fin), w') /\
    follows Fo grad eps p a ps /\ fs_params s = last ps p /\ fs_grad s = grad (last ps p) /\
    fs_out s = out ++ lines Fo val grad p ps /\
    f_ltb Fo eps (norm Fo (grad (last ps p))) = negb fin /\ length ps <= fuel /\ (fin = false -> length ps = fuel) /\
    length (last ps p) = nl.
Proof.
  induction fuel as [|fuel IH]; intros p a out w L; cbn [fw_loop fs_grad].
  - destruct (f_ltb Fo eps (norm Fo (grad p))) eqn:E; eexists _, _, w, []; (split; [reflexivity|]); cbn;
      rewrite app_nil_r; repeat split; auto using stays.
  - destruct (f_ltb Fo eps (norm Fo (grad p))) eqn:E.
    2:{ eexists _, _, w, []. split; [reflexivity|]. cbn. rewrite app_nil_r. repeat split; auto using stays; try lia; try discriminate. }
    destruct (Hgrad p w L) as [Lg _]. set (p1 := moved Fo p a (grad p)).
    assert (length p1 = nl) as L1 by (unfold p1, moved; rewrite minus_length; rewrite ?map_length; congruence).
    destruct (Hval p w L) as (w1 & E1). destruct (Hgrad p1 w1 L1) as (Lg1 & w2 & E2).
    set (a1 := next_length Fo (minus Fo p1 p) (minus Fo (grad p1) (grad p))).
    assert (fw_body Fo red est n nl inf edges exits (mkFw p (grad p) a out) w =
      Ok (mkFw p1 (grad p1) a1 (out ++ [PrintE (f_sqrt Fo (val p)); PrintG (grad p1)]), w2)) as EB.
    { unfold fw_body. cbn [fs_params fs_grad fs_step fs_out].
      rewrite v_sub_minus by (rewrite map_length; congruence). fold (moved Fo p a (grad p)). fold p1.
      unfold mbind at 1, mlift at 1. rewrite (mbind_ok _ _ _ _ _ E1), (mbind_ok _ _ _ _ _ E2).
      rewrite !v_sub_minus by congruence. reflexivity. }
    rewrite (mbind_ok _ _ _ _ _ EB).
    destruct (IH p1 a1 (out ++ [PrintE (f_sqrt Fo (val p)); PrintG (grad p1)]) w2 L1) as (s & fin & w' & ps & EL & A & B & C & D & G & H & I & J).
    exists s, fin, w', (p1 :: ps). split; [exact EL|]. rewrite last_cons. split; [eapply moves; eauto|].
    split; [auto|]. split; [auto|]. split.
    { rewrite D, <- app_assoc. reflexivity. }
    split; [auto|]. cbn. split; [lia|]. split; [intros HF; specialize (I HF); lia|auto].
Qed.

Theorem main_follows eps step start fuel w : length start = nl ->
  exists s fin w' ps, fw_main Fo red est n nl inf edges exits eps step start fuel w = Ok ((s, fin), w') /\
    follows Fo grad eps start step ps /\ length ps <= fuel /\ (fin = false -> length ps = fuel) /\
    f_ltb Fo eps (norm Fo (grad (last ps start))) = negb fin /\
    fs_params s = last ps start /\
    fs_out s = [PrintE (f_sqrt Fo (val start)); PrintG (grad start)] ++ lines Fo val grad start ps ++
               (if fin then [PrintQuota (last ps start)] else []).
Proof.
  intros L. destruct (Hval start w L) as (w1 & E1). destruct (Hgrad start w1 L) as (_ & w2 & E2).
  destruct (loop_follows eps fuel start step [PrintE (f_sqrt Fo (val start)); PrintG (grad start)] w2 L)
    as (s & fin & w' & ps & EL & A & B & C & D & G & H & I & _).
  set (s' := if fin then mkFw (fs_params s) (fs_grad s) (fs_step s) (fs_out s ++ [PrintQuota (fs_params s)]) else s).
  exists s', fin, w', ps. split.
  { unfold fw_main. rewrite (mbind_ok _ _ _ _ _ E1), (mbind_ok _ _ _ _ _ E2), (mbind_ok _ _ _ _ _ EL).
    cbn [fst snd]. unfold s'. destruct fin; reflexivity. }
  split; [auto|]. split; [auto|]. split; [auto|]. split; [auto|].
  unfold s'. destruct fin; cbn [fs_params fs_out].
  - split; [auto|]. rewrite D, B, <- app_assoc. reflexivity.
  - split; [auto|]. rewrite D, app_nil_r. reflexivity.
Qed.
End Loop.

(** In every arithmetic the two closures are functions of the parameters, and [main] is the method. *)
Theorem fw_main_total {F : Type} (Fo : Fops F) red est n nl inf (edges : list edge) exits :
  rayon red -> accurate est (Z.of_nat (n + 2) + 1) -> (Z.of_nat (n + 2) + 1 <= 2 ^ 32)%Z -> 2 <= n ->
  Forall (street_ok n nl) edges -> Forall (fun u => u < n) exits ->
  forall val grad,
  (forall q, length q = nl -> exists w', fw_value Fo n nl inf edges exits q world0 = Ok (val q, w')) ->
  (forall q, length q = nl -> exists w', fw_grad Fo red est n nl inf edges exits q world0 = Ok (grad q, w')) ->
  forall eps step start fuel w, length start = nl ->
  exists s fin w' ps, fw_main Fo red est n nl inf edges exits eps step start fuel w = Ok ((s, fin), w') /\
    follows Fo grad eps start step ps /\ length ps <= fuel /\ (fin = false -> length ps = fuel) /\
    f_ltb Fo eps (norm Fo (grad (last ps start))) = negb fin /\
    fs_params s = last ps start /\
    fs_out s = [PrintE (f_sqrt Fo (val start)); PrintG (grad start)] ++ lines Fo val grad start ps ++
               (if fin then [PrintQuota (last ps start)] else []).
Proof.
  intros HR HA HN Hn He Hx val grad Hv Hg eps step start fuel w L.
  apply main_follows; auto.
  - intros q w0 Lq. destruct (value_total Fo n nl inf edges exits He Hx q Lq) as (e & H).
    destruct (Hv q Lq) as (w1 & E1). destruct (H world0) as (w2 & E2). destruct (H w0) as (w3 & E3).
    exists w3. rewrite E3. congruence.
  - intros q w0 Lq. destruct (gradient_total Fo red HR n nl inf edges exits He Hx est HA HN Hn q Lq) as (g & Lg & H).
    destruct (Hg q Lq) as (w1 & E1). destruct (H world0) as (w2 & E2). destruct (H w0) as (w3 & E3).
    assert (g = grad q) as <- by congruence. eauto.
Qed.

(** Such functions exist: the closures never panic. *)
Theorem closures_total {F : Type} (Fo : Fops F) red est n nl inf (edges : list edge) exits :
  rayon red -> accurate est (Z.of_nat (n + 2) + 1) -> (Z.of_nat (n + 2) + 1 <= 2 ^ 32)%Z -> 2 <= n ->
  Forall (street_ok n nl) edges -> Forall (fun u => u < n) exits ->
  exists val grad, forall q, length q = nl -> length (grad q) = nl /\ forall w,
    (exists w', fw_value Fo n nl inf edges exits q w = Ok (val q, w')) /\
    (exists w', fw_grad Fo red est n nl inf edges exits q w = Ok (grad q, w')).
Proof.
  intros HR HA HN Hn He Hx.
  exists (fun q => match fw_value Fo n nl inf edges exits q world0 with Ok (e, _) => e | Panic _ => f_zero Fo end),
    (fun q => match fw_grad Fo red est n nl inf edges exits q world0 with Ok (g, _) => g | Panic _ => [] end).
  intros q Lq. destruct (value_total Fo n nl inf edges exits He Hx q Lq) as (e & H1).
  destruct (gradient_total Fo red HR n nl inf edges exits He Hx est HA HN Hn q Lq) as (g & Lg & H2).
  destruct (H1 world0) as (w1 & ->). destruct (H2 world0) as (w2 & ->). auto.
Qed.

(** ** A parameter outside its range is never moved again *)
Open Scope R_scope.
Definition out_of_range (p : R) : Prop := p <= 1 / 100 \/ 99 / 100 < p.

Lemma ptime_flat p c top : out_of_range p \/ c = 0 -> snd (ptime (p, c) top) = 0.
Proof.
  intros H. assert (snd (pmin (pmax (p, c) (1 / 100, 0)) (99 / 100, 0)) = 0) as H0.
  { destruct H as [[H|H]| ->]; unfold pmin, pmax; cbn [fst snd].
    - destruct (Rlt_dec (1 / 100) p); [lra|]. cbn [fst snd]. destruct (Rlt_dec (99 / 100) (1 / 100)); reflexivity.
    - destruct (Rlt_dec (1 / 100) p); [|lra]. cbn [fst snd]. destruct (Rlt_dec (99 / 100) p); [reflexivity|lra].
    - destruct (Rlt_dec (1 / 100) p); cbn [fst snd]; destruct (Rlt_dec (99 / 100) _); reflexivity. }
  unfold ptime, pshare. destruct top; cbn [pbin fst snd]; rewrite H0; unfold Rdiv; ring.
Qed.

Lemma along_zero n pairs m : forall k x E, (forall i j, E i j = 0) -> along n pairs m k x E = 0.
Proof.
  induction m as [|m IH]; intros k x E H; cbn [along].
  - rewrite pform_sumf. induction pairs as [|[u v] l IHl]; [reflexivity|]. rewrite sumf_cons, IHl, !H. ring.
  - apply IH. intros i j. unfold sel. rewrite !H. destruct (Rlt_dec _ _); ring.
Qed.

Lemma flat_streets n nl inf params j i k es : (j < nl)%nat -> length params = nl -> out_of_range (nth j params 0) ->
  Forall (street_ok n nl) es ->
  snd (pstreet inf (map (fun '(u, v, (l, top)) =>
    (u, v, ptime (nth l (combine params (unitv Rops nl j)) (0, 0)) top)) es) i k) = 0.
Proof.
  intros Hj Lp Ho He'.
  induction He' as [|[[u v] [l top]] es (Hu & Hv & Hl) He' IH]; cbn [map pstreet].
  - destruct (i =? k)%nat; reflexivity.
  - destruct (_ || _); [|exact IH]. rewrite combine_nth by (rewrite unitv_length; auto). apply ptime_flat.
    destruct (Nat.eq_dec l j) as [->|Hlj]; [left; auto|right].
    unfold unitv. fold (at0 (update (repeat (f_zero Rops) nl) j (f_one Rops)) l). rewrite at0_update_neq by auto.
    unfold at0. cbn [f_zero Rops]. apply nth_repeat.
Qed.

Lemma gradient_flat red est n nl inf edges exits params w g w' j :
  rayon red -> accurate est (Z.of_nat (n + 2) + 1) -> (Z.of_nat (n + 2) + 1 <= 2 ^ 32)%Z -> (2 <= n)%nat ->
  0 <= inf -> length params = nl -> Forall (street_ok n nl) edges ->
  Forall (fun e : edge => fst (fst e) <> snd (fst e)) edges -> Forall (fun u => (u < n)%nat) exits ->
  fw_grad Rops red est n nl inf edges exits params w = Ok (g, w') -> (j < nl)%nat -> out_of_range (nth j params 0) -> nth j g 0 = 0.
Proof.
  intros HR HA HN Hn Hi Lp He Hd Hex E Hj Ho.
  destruct (fw_gradient_along red est n nl inf edges exits params w HR HA HN Hn Hi Lp He Hd Hex) as (g0 & w0 & E0 & S & H).
  unfold fw_grad in E. rewrite (mbind_ok _ _ _ _ _ E0) in E. injection E as <- _.
  fold (col g0 0).
  assert (length (col g0 0) = nl) as Lc by (unfold col; rewrite map_length; destruct S as ([L _] & R & _); congruence).
  rewrite <- (dot_unit_r nl (col g0 0) j) by auto. rewrite H by apply unitv_length.
  rewrite along_zero; [lra|]. intros i k. unfold pstreets. rewrite <- map_rev.
  apply flat_streets with n; auto. now apply Forall_rev.
Qed.

Theorem fw_stuck red est n nl inf (edges : list edge) exits eps step start fuel w s fin w' j :
  rayon red -> accurate est (Z.of_nat (n + 2) + 1) -> (Z.of_nat (n + 2) + 1 <= 2 ^ 32)%Z -> (2 <= n)%nat ->
  0 <= inf -> Forall (street_ok n nl) edges ->
  Forall (fun e : edge => fst (fst e) <> snd (fst e)) edges -> Forall (fun u => (u < n)%nat) exits ->
  length start = nl -> (j < nl)%nat -> out_of_range (nth j start 0) ->
  fw_main Rops red est n nl inf edges exits eps step start fuel w = Ok ((s, fin), w') ->
  nth j (fs_params s) 0 = nth j start 0.
Proof.
  intros HR HA HN Hn Hi He Hd Hex L Hj Ho E.
  destruct (closures_total Rops red est n nl inf edges exits HR HA HN Hn He Hex) as (val & grad & HC).
  destruct (fw_main_total Rops red est n nl inf edges exits HR HA HN Hn He Hex val grad) with
    (eps := eps) (step := step) (start := start) (fuel := fuel) (w := w) as (s' & fin' & w2 & ps & E' & HF & _ & _ & _ & EP & _); auto.
  { intros q Lq. destruct (HC q Lq) as [_ H]. apply (H world0). }
  { intros q Lq. destruct (HC q Lq) as [_ H]. apply (H world0). }
  rewrite E in E'. injection E' as <- <- <-. rewrite EP. clear E EP.
  assert (forall q, length q = nl -> out_of_range (nth j q 0) -> nth j (grad q) 0 = 0) as HG.
  { intros q Lq Hq. destruct (HC q Lq) as [_ H]. destruct (H world0) as [_ (w1 & Eg)].
    eapply gradient_flat; [..|exact Eg|exact Hj|exact Hq]; auto. }
  clear -HF HG HC L Hj Ho. revert L Ho. induction HF as [p a|p a p1 ps HL E1 HF IH]; intros L Ho; [reflexivity|].
  rewrite last_cons. destruct (HC p L) as [Lg _].
  assert (length p1 = nl) as L1 by (rewrite E1; unfold moved; rewrite minus_length; rewrite ?map_length; congruence).
  assert (nth j p1 0 = nth j p 0) as Ej.
  { rewrite E1. unfold moved, minus. change 0 with ((fun ab => f_sub Rops (fst ab) (snd ab)) ((0 : R), (0 : R))) at 1 || idtac.
    assert (nth j (map (fun ab => f_sub Rops (fst ab) (snd ab)) (combine p (map (f_mul Rops a) (grad p)))) 0 = nth j p 0 - a * nth j (grad p) 0) as ->.
    { replace 0 with (0 - a * 0) at 1 by ring.
      rewrite (map_nth (fun ab => f_sub Rops (fst ab) (snd ab)) (combine p (map (f_mul Rops a) (grad p))) (0, a * 0)).
      rewrite combine_nth by (rewrite map_length; congruence). cbn [fst snd f_sub Rops].
      rewrite (map_nth (f_mul Rops a)). reflexivity. }
    rewrite HG by auto. ring. }
  rewrite <- Ej. apply IH; auto. now rewrite Ej.
Qed.

(** ** A NaN in the gradient ends the loop *)
Theorem fw_nan_ends_loop T red est n nl inf (edges : list edge) exits eps fuel (s : fw_state) w :
  In S754_nan (fs_grad s) -> fw_loop (f64ops T) red est n nl inf edges exits eps fuel s w = Ok ((s, true), w).
Proof.
  intros H. assert (f_ltb (f64ops T) eps (norm (f64ops T) (fs_grad s)) = false) as E.
  { unfold norm, norm_squared. rewrite (dot_nan T _ H). cbn. destruct eps as [[]|[]| |[] ? ?]; reflexivity. }
  destruct fuel; cbn [fw_loop]; rewrite E; reflexivity.
Qed.
