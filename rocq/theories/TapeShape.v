(** Which functions return no variable twice and pass none to abs twice. *)
From Coq Require Import List Arith ZArith Bool Lia.
From Verif Require Import Base Float Operation Tape AContext Methods Function Spec TapeFacts AContextFacts FunctionFacts Param
  RecordFacts AnfFacts2.
Import ListNotations.

(** On every path through the function: no variable (argument or local) is returned twice, and none
    is passed to [abs] twice.  [used]: the variables passed to [abs] so far.  [max], [min] and
    [abs_sub] may be used freely. *)
Fixpoint once_p {F : Type} (used : list nat) (p : prog F) : Prop :=
  match p with
  | Ret outs => NoDup outs
  | Abort => True
  | LetC _ p' => once_p used p'
  | Let1 UAbs a p' => ~ In a used /\ once_p (a :: used) p'
  | Let1 _ _ p' | Let2 _ _ _ p' | LetMulAdd _ _ _ p' => once_p used p'
  | Inspect _ k => forall v, once_p used (k v)
  end.
(** For one function; the chain drivers work on the links of a chain one by one. *)
Definition once_f {F : Type} (f : func F) : Prop :=
  match f with Simple _ _ p | AdvFn _ _ p => once_p [] p | Chain _ => False end.

Lemma NoDup_append {A} (l l' : list A) : NoDup l -> NoDup l' -> (forall a, In a l -> In a l' -> False) -> NoDup (l ++ l').
Proof.
  induction l as [|a l IH]; cbn; intros H1 H2 H; auto. inversion H1; subst. constructor.
  - rewrite in_app_iff. intros [I|I]; eauto.
  - apply IH; auto. intros b Hb. apply H. auto.
Qed.

Section Shape.
Context {F : Type} (Fo : Fops F).
Variable c : nat.

Definition absl (i : inner F) : list (option nat) := map arg1 (filter is_abs (i_ops i)).
Definition here (i : inner F) (x : AF F) : Prop :=
  match af_ctx x with None => True | Some (c', k) => c' = c /\ k < length (i_vals i) end.
Definition id_of (x : AF F) : option nat := option_map snd (af_ctx x).

Lemma here_mono i i' x : length (i_vals i) <= length (i_vals i') -> here i x -> here i' x.
Proof. unfold here. destruct (af_ctx x) as [[c' k]|]; auto. intros L [-> H]. split; auto. lia. Qed.
Lemma absl_push i oc a1 a2 (v : F) : absl (push_op i oc a1 a2 v) = absl i ++ (if opcode_eqb oc Abs then [a1] else []).
Proof.
  unfold absl, push_op. cbn. rewrite filter_app, map_app. f_equal. cbn. unfold is_abs. cbn.
  destruct oc; reflexivity.
Qed.
Lemma push_len (i : inner F) oc a1 a2 v : length (i_vals (push_op i oc a1 a2 v)) = S (length (i_vals i)).
Proof. cbn. rewrite app_length. cbn. lia. Qed.

Lemma operand_shape i x v i' : here i x -> operand Some i x v i' ->
  absl i' = absl i /\ length (i_vals i) <= length (i_vals i') /\ v < length (i_vals i') /\
  (forall k, id_of x = Some k -> v = k).
Proof.
  unfold here, operand, id_of. destruct (af_ctx x) as [[c' k]|]; cbn.
  - intros [-> L] [-> ->]. repeat split; auto. now intros k' [= ->].
  - intros _ (fv & _ & -> & ->). rewrite absl_push, push_len. cbn. rewrite app_nil_r. repeat split; auto; try lia. discriminate.
Qed.

(** What one elementary operation adds. *)
Lemma fop_shape oc x y w r w' i : arity_ok oc y -> w_ctx w c = Some i ->
  here i x -> (forall y', y = Some y' -> here i y') -> from_op Fo Some oc x y w = Ok (r, w') ->
  exists i' A, w_ctx w' c = Some i' /\ absl i' = absl i ++ A /\ here i' r /\
    length (i_vals i) <= length (i_vals i') /\
    (forall k, id_of r = Some k -> length (i_vals i) <= k) /\
    A = (if opcode_eqb oc Abs then match id_of x with Some k => [Some k] | None => [] end else []).
Proof.
  intros Ar Hc Hx Hy H. apply from_op_spec in H as (_ & _ & D).
  destruct D as [-> Er P | c' j i1 i2 v1 v2 fv Ep Ec O1 O2 Et Er Ch].
  - exists i, []. split; [auto|]. split; [now rewrite app_nil_r|]. unfold here, id_of. rewrite Er. cbn.
    split; [auto|]. split; [auto|]. split; [discriminate|].
    destruct oc; try reflexivity. destruct y; [discriminate Ar|]. unfold pick_cid in P. unfold here in Hx.
    destruct (af_ctx x) as [[c' k]|]; [|reflexivity]. destruct Hx as [-> _].
    destruct P as [P|(d & P & P2)]; [discriminate|]. cbn in *. injection P as <-. congruence.
  - assert (c' = c) as ->.
    { destruct (pick_cid_some _ _ _ Ep) as (_ & _ & k & [K|(y' & -> & K)]).
      - unfold here in Hx. rewrite K in Hx. destruct Hx; auto.
      - specialize (Hy _ eq_refl). unfold here in Hy. rewrite K in Hy. destruct Hy; auto. }
    assert (j = i) as -> by congruence.
    destruct (operand_shape i x v1 i1 Hx O1) as (A1 & L1 & V1 & K1).
    assert (absl i2 = absl i1 /\ length (i_vals i1) <= length (i_vals i2)) as [A2 L2].
    { destruct y as [y|], v2 as [k2|]; cbn in O2; try contradiction; [|subst; auto].
      destruct (operand_shape i1 y k2 i2) as (? & ? & _); auto. apply (here_mono i); auto. }
    destruct Ch as (_ & _ & C3 & _).
    exists (push_op i2 oc (Some v1) v2 fv), (if opcode_eqb oc Abs then [Some v1] else []).
    split; [auto|]. split; [rewrite absl_push; congruence|].
    unfold here. rewrite Er. rewrite push_len. split; [split; lia|]. split; [lia|].
    split; [unfold id_of; rewrite Er; cbn; intros k [= <-]; lia|].
    destruct oc; try reflexivity. destruct y; [discriminate Ar|]. cbn.
    destruct (pick_cid_some _ _ _ Ep) as (_ & _ & k & [K|(y' & K & _)]); [|discriminate].
    unfold id_of in *. rewrite K in *. cbn in *. now rewrite (K1 k eq_refl).
Qed.

(** What one method adds: [A] are arguments of abs which are no variable of the program. *)
Definition adds_hidden (i : inner F) (w' : world F) (r : AF F) : Prop :=
  exists i' A, w_ctx w' c = Some i' /\ absl i' = absl i ++ A /\ here i' r /\
    length (i_vals i) <= length (i_vals i') /\
    (forall k, id_of r = Some k -> length (i_vals i) <= k) /\
    NoDup A /\ (forall a, In a A -> exists k, a = Some k /\ length (i_vals i) <= k < length (i_vals i') /\ id_of r <> Some k).

Lemma mbind_ok {A B} (m : M (world F) A) (k : A -> M (world F) B) w r :
  mbind m k w = Ok r -> exists a w1, m w = Ok (a, w1) /\ k a w1 = Ok r.
Proof. unfold mbind. destruct (m w) as [[a w1]|]; [eauto|discriminate]. Qed.

Ltac walk :=
  repeat match goal with
  | H : mbind _ _ _ = Ok _ |- _ =>
      let a := fresh "a" in let w1 := fresh "w" in let E := fresh "E" in
      apply mbind_ok in H as (a & w1 & E & H)
  end.
Ltac sidecond := first [ exact I | reflexivity | assumption
  | (eapply here_mono; [|eassumption]; lia)
  | (let z := fresh in let E := fresh in intros z E; inversion E; subst; clear E; sidecond) ].
Ltac go :=
  repeat match goal with
  | H : from_op Fo Some ?oc ?x ?y ?w = Ok (?r, ?w'), Hc : w_ctx ?w c = Some ?i |- _ =>
      let i' := fresh "i" in let A := fresh "A" in let E := fresh "E" in
      let L := fresh "L" in let K := fresh "K" in let Hr := fresh "Hr" in let EA := fresh "EA" in let Hc' := fresh "Hc" in
      destruct (fop_shape oc x y w r w' i) as (i' & A & Hc' & E & Hr & L & K & EA);
      [sidecond|exact Hc|sidecond|sidecond|exact H|]; clear H; cbn [opcode_eqb] in EA
  end.

Lemma hidden_nil i i' w' r : w_ctx w' c = Some i' -> absl i' = absl i -> here i' r ->
  length (i_vals i) <= length (i_vals i') -> (forall k, id_of r = Some k -> length (i_vals i) <= k) -> adds_hidden i w' r.
Proof.
  intros. exists i', []. rewrite app_nil_r. repeat (split; [auto; fail|]). split; [auto using NoDup_nil|]. contradiction.
Qed.

Ltac close_nil := subst; eapply hidden_nil;
  [eassumption | repeat match goal with E : absl _ = _ ++ [] |- _ => rewrite app_nil_r in E end; congruence
  | assumption | lia
  | let k := fresh "k" in let Hk := fresh "Hk" in intros k Hk;
    match goal with K : forall k, id_of _ = Some k -> _ |- _ => specialize (K k Hk) end; lia].

Lemma meth1_shape u x w r w' i : u <> UAbs -> w_ctx w c = Some i -> here i x ->
  meth1 Fo (from_op Fo Some) (af_const Fo) u x w = Ok (r, w') -> adds_hidden i w' r.
Proof.
  intros Hu Hc Hx H.
  assert (forall v, here i (af_const Fo v)) as HK by (intros; exact I).
  destruct u; try congruence; cbn [meth1] in H;
  unfold m_neg, m_recip, m_powi, m_sqrt, m_exp2, m_log2, m_log10, m_log, m_cbrt,
    m_sub, m_mul, m_div, m_exp, m_ln, m_sin, m_cos, m_tan, m_asin, m_acos, m_atan, m_powf in H;
  try discriminate H; walk; go; close_nil.
Qed.

Lemma hidden_one i i' w' r k : w_ctx w' c = Some i' -> absl i' = absl i ++ [Some k] -> here i' r ->
  length (i_vals i) <= k < length (i_vals i') -> (forall k', id_of r = Some k' -> k < k') -> adds_hidden i w' r.
Proof.
  intros Hc HA Hr Hk HL. exists i', [Some k]. split; [auto|]. split; [auto|]. split; [auto|]. split; [lia|].
  split; [intros k' H; specialize (HL k' H); lia|]. split; [repeat constructor; cbn; tauto|].
  intros a [<-|[]]. exists k. split; [auto|]. split; [auto|]. intros E. specialize (HL k E). lia.
Qed.

Lemma meth2_shape b x y w r w' i : w_ctx w c = Some i -> here i x -> here i y ->
  meth2 Fo (from_op Fo Some) (af_const Fo) b x y w = Ok (r, w') -> adds_hidden i w' r.
Proof.
  intros Hc Hx Hy H.
  assert (forall v, here i (af_const Fo v)) as HK by (intros; exact I).
  destruct b; cbn [meth2] in H;
  unfold m_max, m_min, m_abs_sub, m_hypot, m_log, m_powi, m_sqrt,
    m_add, m_sub, m_mul, m_div, m_abs, m_ln, m_powf in H;
  try discriminate H; walk; go; try close_nil.
  all: match goal with EA : ?A = match id_of ?d with _ => _ end, Hd : here ?j ?d |- _ =>
      let k := fresh "k" in let Ek := fresh "Ek" in
      destruct (id_of d) as [k|] eqn:Ek in EA; [|close_nil];
      assert (k < length (i_vals j)) by (unfold here, id_of in Hd, Ek;
        destruct (af_ctx d) as [[? ?]|]; [|discriminate Ek]; injection Ek as <-; apply Hd);
      match goal with K : forall k', id_of d = Some k' -> _ |- _ => pose proof (K k Ek) end
    end; subst;
    repeat match goal with E : absl _ = _ ++ [] |- _ => rewrite app_nil_r in E end;
    match goal with Hc : w_ctx ?ww _ = Some _, Ek : id_of _ = Some ?k |- adds_hidden _ ?ww ?rr =>
      eapply (hidden_one _ _ _ rr k Hc); [congruence|assumption|lia|];
      let k' := fresh "k'" in let Hk' := fresh "Hk'" in intros k' Hk';
      match goal with K : forall k, id_of rr = Some k -> _ |- _ => specialize (K k' Hk') end; lia
    end.
Qed.

Lemma muladd_shape x y z w r w' i : w_ctx w c = Some i -> here i x -> here i y -> here i z ->
  m_mul_add (from_op Fo Some) x y z w = Ok (r, w') -> adds_hidden i w' r.
Proof. intros Hc Hx Hy Hz H. unfold m_mul_add, m_mul, m_add in H. walk. go. close_nil. Qed.

(** The invariant of a run. *)
Record inv (i : inner F) (env : list (AF F)) (used : list nat) : Prop := {
  inv_here : forall p x, nth_error env p = Some x -> here i x;
  inv_inj : forall p q x y k, nth_error env p = Some x -> nth_error env q = Some y -> id_of x = Some k -> id_of y = Some k -> p = q;
  inv_nodup : NoDup (absl i);
  inv_lt : forall a, In a (absl i) -> exists k, a = Some k /\ k < length (i_vals i);
  inv_used : forall p x k, nth_error env p = Some x -> id_of x = Some k -> In (Some k) (absl i) -> In p used
}.

Lemma nth_snoc {A} (l : list A) a p x : nth_error (l ++ [a]) p = Some x ->
  nth_error l p = Some x \/ p = length l /\ x = a.
Proof.
  intros H. destruct (lt_eq_lt_dec p (length l)) as [[L|L]|L].
  - rewrite nth_error_app1 in H; auto.
  - subst. rewrite nth_error_app2, Nat.sub_diag in H; auto. injection H as <-. auto.
  - rewrite nth_error_app2 in H by lia. destruct (p - length l) as [|[|]] eqn:E; try discriminate. lia.
Qed.
Lemma here_lt i x k : here i x -> id_of x = Some k -> k < length (i_vals i).
Proof.
  unfold here, id_of. destruct (af_ctx x) as [[c' k']|]; [|discriminate]. cbn. intros [_ H] [= <-]. auto.
Qed.

Lemma inv_hidden i env used w' r : inv i env used -> adds_hidden i w' r ->
  exists i', w_ctx w' c = Some i' /\ inv i' (env ++ [r]) used.
Proof.
  intros [H1 H2 H3 H4 H5] (i' & A & Hc & EA & Hr & L & K & ND & HA). exists i'. split; [auto|]. constructor.
  - intros p x Hp. apply nth_snoc in Hp as [Hp|[-> ->]]; auto. eapply here_mono; eauto.
  - intros p q x y k Hp Hq Ex Ey.
    apply nth_snoc in Hp as [Hp|[-> ->]]; apply nth_snoc in Hq as [Hq|[-> ->]]; eauto.
    + specialize (K k Ey). pose proof (here_lt _ _ _ (H1 _ _ Hp) Ex). lia.
    + specialize (K k Ex). pose proof (here_lt _ _ _ (H1 _ _ Hq) Ey). lia.
  - rewrite EA. apply NoDup_append; auto.
    intros a Ha Hb. destruct (H4 a Ha) as (k & -> & Hk). destruct (HA _ Hb) as (k' & [= <-] & Hk' & _). lia.
  - intros a Ha. rewrite EA in Ha. apply in_app_or in Ha as [Ha|Ha].
    + destruct (H4 a Ha) as (k & -> & Hk). exists k. split; auto. lia.
    + destruct (HA a Ha) as (k & -> & Hk & _). exists k. split; auto. lia.
  - intros p x k Hp Ex Ha. rewrite EA in Ha. apply nth_snoc in Hp as [Hp|[-> ->]].
    + apply in_app_or in Ha as [Ha|Ha]; eauto.
      destruct (HA _ Ha) as (k' & [= <-] & Hk & _). pose proof (here_lt _ _ _ (H1 _ _ Hp) Ex). lia.
    + exfalso. apply in_app_or in Ha as [Ha|Ha].
      * destruct (H4 _ Ha) as (k' & [= <-] & Hk). specialize (K k Ex). lia.
      * destruct (HA _ Ha) as (k' & [= <-] & _ & Hn). auto.
Qed.

Lemma inv_abs i env used a x w r w' : inv i env used -> w_ctx w c = Some i -> nth_error env a = Some x -> ~ In a used ->
  meth1 Fo (from_op Fo Some) (af_const Fo) UAbs x w = Ok (r, w') ->
  exists i', w_ctx w' c = Some i' /\ inv i' (env ++ [r]) (a :: used).
Proof.
  intros I0 Hc Ha Hu H. pose proof I0 as [H1 H2 H3 H4 H5]. cbn [meth1] in H. unfold m_abs in H.
  destruct (fop_shape Abs x None w r w' i) as (i' & A & Hc' & EA & Hr & L & K & EE); auto.
  { reflexivity. } { eauto. } { discriminate. }
  cbn [opcode_eqb] in EE. exists i'. split; [auto|].
  assert (forall b, In b A -> exists k, b = Some k /\ id_of x = Some k) as HA.
  { subst A. destruct (id_of x) as [k|]; [|contradiction]. intros b [<-|[]]. eauto. }
  constructor.
  - intros p z Hp. apply nth_snoc in Hp as [Hp|[-> ->]]; auto. eapply here_mono; eauto.
  - intros p q z y k Hp Hq Ex Ey.
    apply nth_snoc in Hp as [Hp|[-> ->]]; apply nth_snoc in Hq as [Hq|[-> ->]]; eauto.
    + specialize (K k Ey). pose proof (here_lt _ _ _ (H1 _ _ Hp) Ex). lia.
    + specialize (K k Ex). pose proof (here_lt _ _ _ (H1 _ _ Hq) Ey). lia.
  - rewrite EA. apply NoDup_append; auto.
    + subst A. destruct (id_of x); repeat constructor; cbn; tauto.
    + intros b Hb Hb'. destruct (HA b Hb') as (k & -> & Ek). apply Hu. eauto.
  - intros b Hb. rewrite EA in Hb. apply in_app_or in Hb as [Hb|Hb].
    + destruct (H4 b Hb) as (k & -> & Hk). exists k. split; auto. lia.
    + destruct (HA b Hb) as (k & -> & Ek). exists k. split; auto. pose proof (here_lt _ _ _ (H1 _ _ Ha) Ek). lia.
  - intros p z k Hp Ex Hb. rewrite EA in Hb. apply nth_snoc in Hp as [Hp|[-> ->]].
    + apply in_app_or in Hb as [Hb|Hb]; [right; eauto|].
      destruct (HA _ Hb) as (k' & [= <-] & Ek). left. eauto.
    + exfalso. apply in_app_or in Hb as [Hb|Hb].
      * destruct (H4 _ Hb) as (k' & [= <-] & Hk). specialize (K k Ex). lia.
      * destruct (HA _ Hb) as (k' & [= <-] & Ek). specialize (K k Ex). pose proof (here_lt _ _ _ (H1 _ _ Ha) Ek). lia.
Qed.

Lemma inv_const i env used v : inv i env used -> inv i (env ++ [af_const Fo v]) used.
Proof.
  intros [H1 H2 H3 H4 H5]. constructor; auto.
  - intros p x Hp. apply nth_snoc in Hp as [Hp|[-> ->]]; eauto. exact I.
  - intros p q x y k Hp Hq Ex Ey.
    apply nth_snoc in Hp as [Hp|[-> ->]]; apply nth_snoc in Hq as [Hq|[-> ->]]; eauto; try discriminate.
  - intros p x k Hp Ex Ha. apply nth_snoc in Hp as [Hp|[-> ->]]; eauto. discriminate.
Qed.

(** Outputs: pairwise different variables. *)
Definition distinct (outs : list (AF F)) : Prop :=
  forall p q x y k, nth_error outs p = Some x -> nth_error outs q = Some y -> id_of x = Some k -> id_of y = Some k -> p = q.

Lemma get_nth {A} (l : list A) k x : get l k = Ok x -> nth_error l k = Some x.
Proof. unfold get. destruct (nth_error l k); [now intros [= ->]|discriminate]. Qed.

Lemma run_shape p : forall used env i w outs w', once_p used p -> inv i env used -> w_ctx w c = Some i ->
  run Fo (from_op Fo Some) (af_const Fo) af_v p env w = Ok (outs, w') ->
  exists i', w_ctx w' c = Some i' /\ NoDup (absl i') /\ distinct outs /\ Forall (here i') outs.
Proof.
  induction p as [os|v p IH|u a p IH|b a1 a2 p IH|a1 a2 a3 p IH|a k IH|]; intros used env i w outs w' HO HI Hc H; cbn [run] in H.
  - unfold mlift in H. destruct (mapM (get env) os) as [l|] eqn:E; [|discriminate]. injection H as <- <-.
    exists i. split; [auto|]. split; [apply (inv_nodup _ _ _ HI)|].
    apply mapM_ok_iff in E as [Ll E]. cbn [once_p] in HO.
    assert (forall p x, nth_error l p = Some x -> exists a, nth_error os p = Some a /\ nth_error env a = Some x) as HE.
    { intros p x Hp. destruct (nth_error os p) as [a|] eqn:Ea.
      - destruct (E p a Ea) as (b & Hb & Gb). exists a. split; auto. apply get_nth. congruence.
      - apply nth_error_None in Ea. assert (p < length l) by (apply nth_error_Some; congruence). lia. }
    split.
    + intros p q x y k Hp Hq Ex Ey. destruct (HE p x Hp) as (a & A1 & A2). destruct (HE q y Hq) as (b & B1 & B2).
      assert (a = b) as <- by (eapply (inv_inj _ _ _ HI); eauto).
      eapply NoDup_nth_error; eauto; [apply nth_error_Some; congruence|congruence].
    + apply Forall_forall. intros x Hx. apply In_nth_error in Hx as (p & Hp). destruct (HE p x Hp) as (a & _ & A2).
      eapply (inv_here _ _ _ HI); eauto.
  - eapply (IH used _ i w outs w' HO (inv_const i env used v HI) Hc H).
  - apply mbind_ok in H as (x & w1 & E & H). unfold mlift in E. destruct (get env a) as [x'|] eqn:Ea; [|discriminate].
    injection E as -> ->. apply get_nth in Ea. apply mbind_ok in H as (r & w2 & E & H).
    destruct (match u with UAbs => true | _ => false end) eqn:Eu.
    + destruct u; try discriminate Eu. cbn [once_p] in HO. destruct HO as [Hn HO].
      destruct (inv_abs i env used a x w1 r w2 HI Hc Ea Hn E) as (i' & Hc' & HI'). eapply IH; eauto.
    + assert (adds_hidden i w2 r) as HH.
      { eapply meth1_shape; [|exact Hc| |exact E]; [intros ->; discriminate|]. eapply (inv_here _ _ _ HI); eauto. }
      destruct (inv_hidden i env used w2 r HI HH) as (i' & Hc' & HI').
      assert (once_p used p) as HO' by (destruct u; try discriminate Eu; exact HO). eapply IH; eauto.
  - apply mbind_ok in H as (x & w1 & E & H). unfold mlift in E. destruct (get env a1) as [x'|] eqn:Ea; [|discriminate].
    injection E as -> ->. apply get_nth in Ea.
    apply mbind_ok in H as (y & w1' & E & H). unfold mlift in E. destruct (get env a2) as [y'|] eqn:Eb; [|discriminate].
    injection E as -> ->. apply get_nth in Eb.
    apply mbind_ok in H as (r & w2 & E & H).
    assert (adds_hidden i w2 r) as HH.
    { eapply meth2_shape; [exact Hc| | |exact E]; eapply (inv_here _ _ _ HI); eauto. }
    destruct (inv_hidden i env used w2 r HI HH) as (i' & Hc' & HI'). eapply IH; eauto.
  - apply mbind_ok in H as (x & w1 & E & H). unfold mlift in E. destruct (get env a1) as [x'|] eqn:Ea; [|discriminate].
    injection E as -> ->. apply get_nth in Ea.
    apply mbind_ok in H as (y & w1' & E & H). unfold mlift in E. destruct (get env a2) as [y'|] eqn:Eb; [|discriminate].
    injection E as -> ->. apply get_nth in Eb.
    apply mbind_ok in H as (z & w1'' & E & H). unfold mlift in E. destruct (get env a3) as [z'|] eqn:Ez; [|discriminate].
    injection E as -> ->. apply get_nth in Ez.
    apply mbind_ok in H as (r & w2 & E & H).
    assert (adds_hidden i w2 r) as HH.
    { eapply muladd_shape; [exact Hc| | | |exact E]; eapply (inv_here _ _ _ HI); eauto. }
    destruct (inv_hidden i env used w2 r HI HH) as (i' & Hc' & HI'). eapply IH; eauto.
  - apply mbind_ok in H as (x & w1 & E & H). unfold mlift in E. destruct (get env a) as [x'|] eqn:Ea; [|discriminate].
    injection E as -> ->. eapply IH; eauto.
  - discriminate H.
Qed.

(** What [set_dep_slice] adds: the ids of the outputs, and a new one for each constant. *)
Lemma deps_shape outs : forall w w' i, w_ctx w c = Some i -> Forall (here i) outs ->
  set_dep_slice Some c outs w = Ok (tt, w') ->
  exists i' ds, w_ctx w' c = Some i' /\ absl i' = absl i /\ i_deps i' = i_deps i ++ ds /\ length ds = length outs /\
    (forall p o d, nth_error outs p = Some o -> nth_error ds p = Some d ->
       match id_of o with Some k => d = k | None => length (i_vals i) <= d end) /\
    (forall p q d, nth_error ds p = Some d -> nth_error ds q = Some d -> p = q \/
       exists x y, nth_error outs p = Some x /\ nth_error outs q = Some y /\ id_of x = Some d /\ id_of y = Some d).
Proof.
  induction outs as [|o outs IH]; intros w w' i Hc Hh H; cbn [set_dep_slice] in H.
  - injection H as <-. exists i, []. rewrite app_nil_r. repeat split; auto; intros [|p]; discriminate.
  - apply mbind_ok in H as ([] & w1 & E & H). inversion Hh as [|? ? Ho Hh']; subst.
    unfold set_dep, with_ctx in E. rewrite Hc in E. unfold here in Ho. unfold id_of in *.
    destruct (af_ctx o) as [[c' k]|] eqn:Eo.
    + destruct Ho as [-> Hk]. rewrite Nat.eqb_refl in E. cbn in E. injection E as <-.
      match type of H with set_dep_slice _ _ _ ?ww = _ =>
        destruct (IH ww w' (push_dep i k)) as (i' & ds & A1 & A2 & A3 & A4 & A5 & A6); [| |exact H|] end.
      { cbn. now rewrite Nat.eqb_refl. } { exact Hh'. }
      exists i', (k :: ds). split; [auto|]. split; [exact A2|]. split; [rewrite A3; cbn; rewrite <- app_assoc; reflexivity|].
      split; [cbn; auto|]. split.
      * intros [|p] o' d; cbn; [intros [= <-] [= <-]; now rewrite Eo|]. intros B1 B2. exact (A5 p o' d B1 B2).
      * assert (forall q, nth_error ds q = Some k -> exists y, nth_error outs q = Some y /\ option_map snd (af_ctx y) = Some k) as HK.
        { intros q Hq. destruct (nth_error outs q) as [y|] eqn:Ey.
          - exists y. split; auto. specialize (A5 q y k Ey Hq). destruct (af_ctx y) as [[c' k']|]; cbn in *; [congruence|lia].
          - apply nth_error_None in Ey. assert (q < length ds) by (apply nth_error_Some; congruence). lia. }
        intros [|p] [|q] d; cbn; auto.
        -- intros [= <-] B. right. destruct (HK q B) as (y & Y1 & Y2). exists o, y. rewrite Eo. auto.
        -- intros B [= <-]. right. destruct (HK p B) as (y & Y1 & Y2). exists y, o. rewrite Eo. auto.
        -- intros B1 B2. destruct (A6 p q d B1 B2) as [->|X]; auto.
    + cbn in E. injection E as <-.
      set (i0 := push_op i Const None None (af_v o)) in *.
      match type of H with set_dep_slice _ _ _ ?ww = _ =>
        destruct (IH ww w' (push_dep i0 (length (i_vals i)))) as (i' & ds & A1 & A2 & A3 & A4 & A5 & A6); [| |exact H|] end.
      { cbn. now rewrite Nat.eqb_refl. }
      { eapply Forall_impl; [|exact Hh']. intros x. apply here_mono. cbn. rewrite app_length. lia. }
      assert (length (i_vals (push_dep i0 (length (i_vals i)))) = S (length (i_vals i))) as LL by apply push_len.
      rewrite LL in A5.
      assert (forall q, nth_error ds q = Some (length (i_vals i)) -> False) as HK.
      { intros q Hq. destruct (nth_error outs q) as [y|] eqn:Ey.
        - specialize (A5 q y _ Ey Hq). rewrite Forall_forall in Hh'. specialize (Hh' y (nth_error_In _ _ Ey)).
          unfold here in Hh'. destruct (af_ctx y) as [[c' k']|]; cbn in *; lia.
        - apply nth_error_None in Ey. assert (q < length ds) by (apply nth_error_Some; congruence). lia. }
      exists i', (length (i_vals i) :: ds). split; [auto|].
      split; [rewrite A2; unfold i0, push_dep; change (absl (push_op i Const None None (af_v o)) = absl i); rewrite absl_push; cbn; apply app_nil_r|].
      split; [rewrite A3; cbn; rewrite <- app_assoc; reflexivity|].
      split; [cbn; auto|]. split.
      * intros [|p] o' d; cbn; [intros [= <-] [= <-]; rewrite Eo; cbn; lia|]. intros B1 B2. specialize (A5 p o' d B1 B2).
        destruct (af_ctx o') as [[c' k']|]; cbn in *; auto. lia.
      * intros [|p] [|q] d; cbn; auto.
        -- intros [= <-] B. destruct (HK q B).
        -- intros B [= <-]. destruct (HK p B).
        -- intros B1 B2. destruct (A6 p q d B1 B2) as [->|X]; auto.
Qed.
End Shape.

Section Main.
Context {F : Type} (Fo : Fops F).

Lemma inv_inputs c (x : list F) : inv c (i_in x) (mk_inputs Fo c 0 x) [].
Proof.
  assert (forall (x : list F) b p a, nth_error (mk_inputs Fo c b x) p = Some a -> p < length x /\ af_ctx a = Some (c, b + p)) as H.
  { clear. induction x as [|v x IH]; intros b [|p] a; cbn; try discriminate.
    - intros [= <-]. cbn. rewrite Nat.add_0_r. split; auto. lia.
    - intros H. apply IH in H as [H1 H2]. split; [lia|]. rewrite H2. f_equal. f_equal. lia. }
  constructor.
  - intros p a Hp. apply H in Hp as [Hp Ea]. unfold here. rewrite Ea. cbn. auto.
  - intros p q a b k Hp Hq. apply H in Hp as [Hp Ea]. apply H in Hq as [Hq Eb]. unfold id_of. rewrite Ea, Eb. cbn. congruence.
  - constructor.
  - contradiction.
  - contradiction.
Qed.

Theorem once_shape f x w t w' : once_f f -> fn_tape Fo f x w = Ok (t, w') -> NoDup (t_deps t) /\ abs_once t.
Proof.
  intros HO HT. apply fn_tape_inv in HT.
  destruct HT as (w1 & w2 & w3 & outs & i & Ch & E1 & E2 & E3 & -> & _).
  assert (Hin : w_ctx w1 (w_next w) = Some (i_in x)) by apply Ch.
  pose proof (eval_keeps_io Fo f _ _ _ _ E1) as [Hd _]. specialize (Hd (w_next w)). rewrite Hin in Hd. cbn in Hd.
  assert (exists p, once_p [] p /\ run Fo (from_op Fo Some) (af_const Fo) af_v p (mk_inputs Fo (w_next w) 0 x) w1 = Ok (outs, w2)) as (p & Hp & HR).
  { unfold eval in E1. destruct f as [n m p|n m p|fs]; cbn [once_f feval] in *; [eauto| |contradiction].
    exists p. split; [auto|]. apply mbind_ok in E1 as ([] & w1' & Ea & E1). unfold mlift in Ea.
    destruct (assert _) as [[]|]; [|discriminate]. injection Ea as <-. apply mbind_ok in E1 as (r & w2' & Er & E1).
    apply mbind_ok in E1 as ([] & w2'' & Ea & E1). unfold mlift in Ea. destruct (assert _) as [[]|]; [|discriminate]. injection Ea as <-.
    injection E1 as <- <-. exact Er. }
  destruct (run_shape Fo (w_next w) p [] _ _ _ _ _ Hp (inv_inputs (w_next w) x) Hin HR) as (i2 & Hc2 & NA & DO & HH).
  rewrite Hc2 in Hd. cbn in Hd. injection Hd as Hd.
  destruct (deps_shape (w_next w) outs w2 w3 i2 Hc2 HH E2) as (i3 & ds & C3 & A3 & D3 & L3 & _ & U3).
  assert (i3 = i) as -> by congruence. rewrite <- Hd in D3. cbn in D3. split.
  - cbn [t_deps tape_of]. rewrite D3. apply NoDup_nth_error. intros p1 p2 Hl He.
    destruct (nth_error ds p1) as [d|] eqn:Ed; [|apply nth_error_None in Ed; lia].
    destruct (U3 p1 p2 d Ed (eq_sym He)) as [|(a & b & Ha & Hb & Ea & Eb)]; auto. eapply DO; eauto.
  - unfold abs_once. cbn [t_ops tape_of]. fold (absl i). rewrite A3. exact NA.
Qed.
End Main.
