(** Scoped C++ programs mean what they say. *)
From Coq Require Import List Arith Bool Lia.
From Verif Require Import Base Float Operation Tape AContext Methods Ffi FfiSpec FfiFacts FfiPanicSpec FfiPanics CxxSpec.
Import ListNotations.

Fixpoint assoc {A : Type} (x : nat) (L : list (nat * A)) : option A :=
  match L with [] => None | (y, v) :: L => if x =? y then Some v else assoc x L end.
Definition below {A : Type} (n : nat) (L : list (nat * A)) : Prop := Forall (fun p => fst p < n) L.

Section Assoc.
Context {A : Type}.
Lemma assoc_none x (L : list (nat * A)) : ~ In x (map fst L) -> assoc x L = None.
Proof. induction L as [|[y v] L IH]; cbn; auto. intros H. destruct (Nat.eqb_spec x y); [subst; tauto|]. apply IH. tauto. Qed.
Lemma assoc_in x v (L : list (nat * A)) : assoc x L = Some v -> In x (map fst L).
Proof. induction L as [|[y u] L IH]; cbn; [discriminate|]. destruct (Nat.eqb_spec x y); auto. Qed.
Lemma assoc_app x (L1 L2 : list (nat * A)) : ~ In x (map fst L1) -> assoc x (L1 ++ L2) = assoc x L2.
Proof. induction L1 as [|[y u] L IH]; cbn; auto. intros H. destruct (Nat.eqb_spec x y); [subst; tauto|]. apply IH. tauto. Qed.
Lemma assoc_nth i (L : list (nat * A)) d : NoDup (map fst L) -> i < length L ->
  assoc (nth i (map fst L) 0) L = Some (nth i (map snd L) d).
Proof.
  revert i. induction L as [|[y v] L IH]; intros i N H; [cbn in H; lia|]. cbn in N. inversion N as [|? ? N1 N2]; subst.
  destruct i as [|i]; cbn; [now rewrite Nat.eqb_refl|]. cbn in H.
  destruct (Nat.eqb_spec (nth i (map fst L) 0) y) as [E|]; [|apply IH; auto; lia].
  exfalso. apply N1. rewrite <- E. apply nth_In. rewrite map_length. lia.
Qed.
Lemma below_le n n' (L : list (nat * A)) : below n L -> n <= n' -> below n' L.
Proof. intros H E. eapply Forall_impl; [|exact H]. cbn. lia. Qed.
Lemma below_fresh n (L : list (nat * A)) : below n L -> ~ In n (map fst L).
Proof. intros H HI. apply in_map_iff in HI as (p & E & HP). unfold below in H. rewrite Forall_forall in H. apply H in HP. lia. Qed.
Lemma below_lt n (L : list (nat * A)) x v : below n L -> assoc x L = Some v -> x < n.
Proof.
  intros H HA. apply assoc_in in HA. apply in_map_iff in HA as (p & <- & HP). unfold below in H. rewrite Forall_forall in H. auto.
Qed.
Lemma assoc_drop x y u (L1 L2 : list (nat * A)) : NoDup (map fst (L1 ++ (y, u) :: L2)) ->
  assoc x (L1 ++ L2) = if x =? y then None else assoc x (L1 ++ (y, u) :: L2).
Proof.
  intros N. destruct (Nat.eqb_spec x y) as [->|D].
  - apply assoc_none. rewrite map_app in *. cbn in N. apply NoDup_remove_2 in N. auto.
  - clear N. induction L1 as [|[z w] L1 IH]; cbn.
    + destruct (Nat.eqb_spec x y); [contradiction|]. auto.
    + destruct (x =? z); auto.
Qed.
End Assoc.

Section Sim.
Context {S : Type} (So : Fops S) (left : cop -> cop).
Notation zero := (zero_val So).
Notation run := (value_run So left).
Notation m_expr := (m_expr So left).
Notation m_simple := (m_simple So left).
Notation m_block := (m_block So left).

(** The store holds exactly the objects [V] and the contexts [C], and names from [n] on are free. *)
Record good (n : nat) (st : store S) (V : list (nat * AF S)) (C : list (nat * nat)) : Prop := {
  g_val : forall x, s_val st x = assoc x V;
  g_ctx : forall k, s_ctx st k = option_map Some (assoc k C);
  g_vd : NoDup (map fst V);
  g_cd : NoDup (map fst C);
  g_vb : below n V;
  g_cb : below n C
}.

Lemma run_app p : forall q st, run st (p ++ q) = obind (run st p) (fun st' => run st' q).
Proof. induction p as [|s p IH]; intros q st; cbn; [reflexivity|]. destruct (value_step So left st s); cbn; auto. Qed.
Lemma run_app_done p q st st' : run st p = Done st' -> run st (p ++ q) = run st' q.
Proof. intros H. now rewrite run_app, H. Qed.
Lemma run_app_err p q st e : run st p = Err e -> run st (p ++ q) = Err e.
Proof. intros H. now rewrite run_app, H. Qed.
Lemma run_one s st : run st [s] = value_step So left st s.
Proof. cbn. destruct (value_step So left st s); auto. Qed.

Lemma good_fresh n st V C : good n st V C -> fresh_val st n = Done tt.
Proof. intros [G1 G2 G3 G4 G5 G6]. unfold fresh_val. rewrite G1, assoc_none; auto. apply below_fresh; auto. Qed.
Lemma good_new n st V C v w : good n st V C -> good (n + 1) (set_val (mkStore w (s_val st) (s_ctx st)) n (Some v)) ((n, v) :: V) C.
Proof.
  intros [G1 G2 G3 G4 G5 G6]. constructor; cbn; auto.
  - intros x. unfold upd. destruct (x =? n); auto.
  - constructor; auto. apply below_fresh; auto.
  - constructor; [cbn; lia|]. eapply below_le; eauto; lia.
  - eapply below_le; eauto; lia.
Qed.
Lemma good_the n st V C x v : good n st V C -> assoc x V = Some v -> the_val st x = Done v.
Proof. intros G E. unfold the_val. now rewrite (g_val _ _ _ _ G), E. Qed.
Lemma good_world n st V C w : good n st V C -> good n (mkStore w (s_val st) (s_ctx st)) V C.
Proof. intros [G1 G2 G3 G4 G5 G6]. constructor; auto. Qed.
Lemma good_le n n' st V C : good n st V C -> n <= n' -> good n' st V C.
Proof. intros [G1 G2 G3 G4 G5 G6] H. constructor; auto; eapply below_le; eauto. Qed.

Lemma good_dtor n st T x u V C : good n st (T ++ (x, u) :: V) C ->
  exists st', value_step So left st (SDtor x) = Done st' /\ s_w st' = s_w st /\ good n st' (T ++ V) C.
Proof.
  intros G. pose proof G as [G1 G2 G3 G4 G5 G6]. cbn.
  assert (assoc x (T ++ (x, u) :: V) = Some u) as E.
  { rewrite assoc_app; [cbn; now rewrite Nat.eqb_refl|]. rewrite map_app in G3. cbn in G3. apply NoDup_remove_2 in G3.
    intros HI. apply G3. apply in_or_app. auto. }
  rewrite (good_the _ _ _ _ _ _ G E). cbn. eexists. split; [reflexivity|]. split; [reflexivity|]. constructor; cbn; auto.
  - intros y. unfold upd. rewrite (assoc_drop y x u T V G3). destruct (y =? x); auto.
  - rewrite map_app in *. cbn in G3. eapply NoDup_remove_1; eauto.
  - unfold below in *. apply Forall_app in G5 as [F1 F2]. inversion F2; subst. apply Forall_app; auto.
Qed.
Lemma good_dtors T1 : forall n st T V C, good n st (T ++ T1 ++ V) C ->
  exists st', run st (map SDtor (map fst T1)) = Done st' /\ s_w st' = s_w st /\ good n st' (T ++ V) C.
Proof.
  induction T1 as [|[x u] T1 IH]; intros n st T V C G; cbn [map fst]; [exists st; auto|].
  destruct (good_dtor n st T x u (T1 ++ V) C G) as (st1 & E1 & W1 & G1).
  destruct (IH n st1 T V C G1) as (st2 & E2 & W2 & G2). exists st2. cbn [value_run]. rewrite E1. cbn [obind].
  split; [exact E2|]. split; [congruence|auto].
Qed.

(** ** Expressions *)
Definition e_ok (n : nat) (vars : list nat) (e : expr S) (st : store S) (T V : list (nat * AF S)) (C : list (nat * nat)) : Prop :=
  let '(n', p, r, ts) := c_expr n vars e in
  match m_expr (map snd V) e (s_w st) with
  | Ok (v, w') => exists st' T', run st p = Done st' /\ s_w st' = w' /\ map fst T' = ts /\ n <= n' /\
      good n' st' (T' ++ T ++ V) C /\ Forall (fun q => n <= fst q) T' /\ assoc r (T' ++ T ++ V) = Some v /\
      match e with EVar _ => T' = [] | _ => exists T'', T' = (r, v) :: T'' end
  | Panic p' => run st p = Err (RustPanic p')
  end.

Lemma ge_notin n (T : list (nat * AF S)) x : Forall (fun q => n <= fst q) T -> x < n -> ~ In x (map fst T).
Proof. intros H L HI. apply in_map_iff in HI as (q & E & HQ). rewrite Forall_forall in H. apply H in HQ. lia. Qed.

Lemma e_two n vars a b st T V C (g : nat -> nat -> nat -> stmt S) (f : AF S -> AF S -> M (world S) (AF S)) :
  e_ok n vars a st T V C ->
  (forall n1 st1 T1, good n1 st1 (T1 ++ V) C -> e_ok n1 vars b st1 T1 V C) ->
  (forall x y z u v st1, fresh_val st1 x = Done tt -> the_val st1 y = Done u -> the_val st1 z = Done v ->
     value_step So left st1 (g x y z) = obind (call st1 (f u v)) (fun r => Done (set_val (snd r) x (Some (fst r))))) ->
  let '(n1, p1, r1, t1) := c_expr n vars a in
  let '(n2, p2, r2, t2) := c_expr n1 vars b in
  match mbind (m_expr (map snd V) a) (fun x => mbind (m_expr (map snd V) b) (f x)) (s_w st) with
  | Ok (v, w') => exists st' T', run st (p1 ++ p2 ++ [g n2 r1 r2]) = Done st' /\ s_w st' = w' /\ map fst T' = n2 :: t2 ++ t1 /\ n <= n2 + 1 /\
      good (n2 + 1) st' (T' ++ T ++ V) C /\ Forall (fun q => n <= fst q) T' /\ assoc n2 (T' ++ T ++ V) = Some v /\
      exists T'', T' = (n2, v) :: T''
  | Panic p' => run st (p1 ++ p2 ++ [g n2 r1 r2]) = Err (RustPanic p')
  end.
Proof.
  intros HA HB HG. unfold e_ok in *. destruct (c_expr n vars a) as [[[n1 p1] r1] t1] eqn:Ca.
  destruct (c_expr n1 vars b) as [[[n2 p2] r2] t2] eqn:Cb. unfold mbind.
  destruct (m_expr (map snd V) a (s_w st)) as [[u w1]|q]; [|now apply run_app_err].
  destruct HA as (st1 & T1 & R1 & W1 & M1 & L1 & G1 & F1 & A1 & _).
  rewrite (run_app_done _ _ _ _ R1). specialize (HB n1 st1 (T1 ++ T)). rewrite <- app_assoc in HB. specialize (HB G1).
  rewrite Cb in HB. rewrite W1 in HB. destruct (m_expr (map snd V) b w1) as [[v w2]|q]; [|now apply run_app_err].
  destruct HB as (st2 & T2 & R2 & W2 & M2 & L2 & G2 & F2 & A2 & _).
  rewrite (run_app_done _ _ _ _ R2), run_one.
  assert (assoc r1 (T2 ++ T1 ++ T ++ V) = Some u) as A1'.
  { rewrite assoc_app; auto. eapply ge_notin; eauto. eapply below_lt; [apply (g_vb _ _ _ _ G1)|exact A1]. }
  rewrite (HG _ _ _ u v _ (good_fresh _ _ _ _ G2) (good_the _ _ _ _ _ _ G2 A1') (good_the _ _ _ _ _ _ G2 A2)).
  unfold call. rewrite W2. destruct (f u v w2) as [[r w3]|q]; [|reflexivity]. cbn [obind fst snd].
  exists (set_val (mkStore w3 (s_val st2) (s_ctx st2)) n2 (Some r)), ((n2, r) :: T2 ++ T1).
  split; [reflexivity|]. split; [reflexivity|]. split; [cbn; rewrite map_app; congruence|]. split; [lia|].
  split; [cbn; rewrite <- app_assoc; apply good_new; auto|].
  split. { constructor; [cbn; lia|]. apply Forall_app. split; auto. eapply Forall_impl; [|exact F2]. cbn. lia. }
  split; [cbn; now rewrite Nat.eqb_refl|]. eauto.
Qed.
Lemma e_one n vars a st T V C (g : nat -> nat -> stmt S) (f : AF S -> M (world S) (AF S)) :
  e_ok n vars a st T V C ->
  (forall x y u st1, fresh_val st1 x = Done tt -> the_val st1 y = Done u ->
     value_step So left st1 (g x y) = obind (call st1 (f u)) (fun r => Done (set_val (snd r) x (Some (fst r))))) ->
  let '(n1, p1, r1, t1) := c_expr n vars a in
  match mbind (m_expr (map snd V) a) f (s_w st) with
  | Ok (v, w') => exists st' T', run st (p1 ++ [g n1 r1]) = Done st' /\ s_w st' = w' /\ map fst T' = n1 :: t1 /\ n <= n1 + 1 /\
      good (n1 + 1) st' (T' ++ T ++ V) C /\ Forall (fun q => n <= fst q) T' /\ assoc n1 (T' ++ T ++ V) = Some v /\
      exists T'', T' = (n1, v) :: T''
  | Panic p' => run st (p1 ++ [g n1 r1]) = Err (RustPanic p')
  end.
Proof.
  intros HA HG. unfold e_ok in *. destruct (c_expr n vars a) as [[[n1 p1] r1] t1] eqn:Ca. unfold mbind.
  destruct (m_expr (map snd V) a (s_w st)) as [[u w1]|q]; [|now apply run_app_err].
  destruct HA as (st1 & T1 & R1 & W1 & M1 & L1 & G1 & F1 & A1 & _).
  rewrite (run_app_done _ _ _ _ R1), run_one.
  rewrite (HG _ _ u _ (good_fresh _ _ _ _ G1) (good_the _ _ _ _ _ _ G1 A1)).
  unfold call. rewrite W1. destruct (f u w1) as [[r w3]|q]; [|reflexivity]. cbn [obind fst snd].
  exists (set_val (mkStore w3 (s_val st1) (s_ctx st1)) n1 (Some r)), ((n1, r) :: T1).
  split; [reflexivity|]. split; [reflexivity|]. split; [cbn; congruence|]. split; [lia|].
  split; [cbn; apply good_new; auto|]. split; [constructor; [cbn; lia|auto]|].
  split; [cbn; now rewrite Nat.eqb_refl|]. eauto.
Qed.

Lemma store_eta (st : store S) : mkStore (s_w st) (s_val st) (s_ctx st) = st.
Proof. destruct st; reflexivity. Qed.

Lemma expr_ok e : forall n vars st T V C, map fst V = vars -> ok_expr (length vars) e = true -> good n st (T ++ V) C -> e_ok n vars e st T V C.
Proof.
  induction e as [x|c|o rl a IHa b IHb|o c b IHb|f rl a IHa b IHb|f a IHa]; intros n vars st T V C HV HK G; cbn [ok_expr] in HK.
  - unfold e_ok. cbn. apply Nat.ltb_lt in HK. exists st, []. split; [reflexivity|]. split; [reflexivity|]. split; [reflexivity|].
    split; [auto|]. split; [exact G|]. split; [constructor|]. split; [|reflexivity]. cbn.
    rewrite assoc_app.
    + rewrite <- HV. apply assoc_nth; [|rewrite <- HV, map_length in HK; auto]. pose proof (g_vd _ _ _ _ G) as N. rewrite map_app in N.
      clear - N. induction (map fst T) as [|y l IH]; cbn in N; auto. inversion N; auto.
    + pose proof (g_vd _ _ _ _ G) as N. rewrite map_app in N. intros HI.
      assert (In (nth x vars 0) (map fst V)) as HI' by (rewrite HV; apply nth_In; auto).
      clear - N HI HI'. induction (map fst T) as [|y l IH]; cbn in *; [auto|]. inversion N as [|? ? N1 N2]; subst.
      destruct HI as [->|HI]; [apply N1, in_or_app; auto|auto].
  - unfold e_ok. cbn. rewrite (good_fresh _ _ _ _ G). cbn.
    exists (set_val st n (Some (const_val So c))), [(n, const_val So c)]. split; [reflexivity|]. split; [reflexivity|]. split; [reflexivity|].
    split; [lia|]. split; [|split; [constructor; [cbn; lia|constructor]|split; [cbn; now rewrite Nat.eqb_refl|eauto]]].
    pose proof (good_new n st _ C (const_val So c) (s_w st) G) as X. rewrite store_eta in X. exact X.
  - apply andb_prop in HK as [K1 K2]. unfold e_ok. cbn [c_expr CxxSpec.m_expr]. destruct rl.
    + pose proof (e_two n vars b a st T V C (fun x y z => SBin o x z y) (fun v u => op2 So (rust_op o) u v) (IHb n vars st T V C HV K2 G)
        (fun n1 st1 T1 G1 => IHa n1 vars st1 T1 V C HV K1 G1)) as X.
      lapply X; [clear X; intros X|]. 2: { intros x y z u v st1 E1 E2 E3. cbn -[call meth2]. now rewrite E1, E3, E2. }
      destruct (c_expr n vars b) as [[[n1 p1] r1] t1]. destruct (c_expr n1 vars a) as [[[n2 p2] r2] t2]. exact X.
    + pose proof (e_two n vars a b st T V C (fun x y z => SBin o x y z) (fun u v => op2 So (rust_op o) u v) (IHa n vars st T V C HV K1 G)
        (fun n1 st1 T1 G1 => IHb n1 vars st1 T1 V C HV K2 G1)) as X.
      lapply X; [clear X; intros X|]. 2: { intros x y z u v st1 E1 E2 E3. cbn -[call meth2]. now rewrite E1, E2, E3. }
      destruct (c_expr n vars a) as [[[n1 p1] r1] t1]. destruct (c_expr n1 vars b) as [[[n2 p2] r2] t2]. exact X.
  - unfold e_ok. cbn [c_expr CxxSpec.m_expr].
    pose proof (e_one n vars b st T V C (fun x y => SBinLeft o x c y) (fun v => op2 So (rust_op (left o)) (const_val So c) v) (IHb n vars st T V C HV HK G)) as X.
    lapply X; [clear X; intros X|]. 2: { intros x y u st1 E1 E2. cbn -[call meth2]. now rewrite E1, E2. }
    destruct (c_expr n vars b) as [[[n1 p1] r1] t1]. exact X.
  - apply andb_prop in HK as [K1 K2]. unfold e_ok. cbn [c_expr CxxSpec.m_expr]. destruct rl.
    + pose proof (e_two n vars b a st T V C (fun x y z => SFn2 f x z y) (fun v u => op2 So (rust_fn2 f) u v) (IHb n vars st T V C HV K2 G)
        (fun n1 st1 T1 G1 => IHa n1 vars st1 T1 V C HV K1 G1)) as X.
      lapply X; [clear X; intros X|]. 2: { intros x y z u v st1 E1 E2 E3. cbn -[call meth2]. now rewrite E1, E3, E2. }
      destruct (c_expr n vars b) as [[[n1 p1] r1] t1]. destruct (c_expr n1 vars a) as [[[n2 p2] r2] t2]. exact X.
    + pose proof (e_two n vars a b st T V C (fun x y z => SFn2 f x y z) (fun u v => op2 So (rust_fn2 f) u v) (IHa n vars st T V C HV K1 G)
        (fun n1 st1 T1 G1 => IHb n1 vars st1 T1 V C HV K2 G1)) as X.
      lapply X; [clear X; intros X|]. 2: { intros x y z u v st1 E1 E2 E3. cbn -[call meth2]. now rewrite E1, E2, E3. }
      destruct (c_expr n vars a) as [[[n1 p1] r1] t1]. destruct (c_expr n1 vars b) as [[[n2 p2] r2] t2]. exact X.
  - unfold e_ok. cbn [c_expr CxxSpec.m_expr].
    pose proof (e_one n vars a st T V C (fun x y => SFn1 f x y) (fun v => meth1 So (fop So) (const_val So) (rust_fn1 f) v) (IHa n vars st T V C HV HK G)) as X.
    lapply X; [clear X; intros X|]. 2: { intros x y u st1 E1 E2. cbn -[call meth1]. now rewrite E1, E2. }
    destruct (c_expr n vars a) as [[[n1 p1] r1] t1]. exact X.
Qed.

(** ** Statements *)
Fixpoint setv (x : nat) (v : AF S) (V : list (nat * AF S)) : list (nat * AF S) :=
  match V, x with [], _ => [] | (y, _) :: V, O => (y, v) :: V | q :: V, Datatypes.S x => q :: setv x v V end.
Lemma setv_fst v V : forall x, map fst (setv x v V) = map fst V.
Proof. induction V as [|[y u] V IH]; intros [|x]; cbn; auto. now rewrite IH. Qed.
Lemma setv_snd v V : forall x, map snd (setv x v V) = set_nth x v (map snd V).
Proof. induction V as [|[y u] V IH]; intros [|x]; cbn; auto. now rewrite IH. Qed.
Lemma assoc_setv v V y : forall x, NoDup (map fst V) -> x < length V ->
  assoc y (setv x v V) = if y =? nth x (map fst V) 0 then Some v else assoc y V.
Proof.
  induction V as [|[z u] V IH]; intros x N L; [cbn in L; lia|]. cbn in N. inversion N as [|? ? N1 N2]; subst.
  destruct x as [|x]; cbn; [destruct (y =? z); auto|]. cbn in L. rewrite IH by (auto; lia).
  destruct (Nat.eqb_spec y z) as [->|]; auto. destruct (Nat.eqb_spec z (nth x (map fst V) 0)) as [E|]; auto.
  exfalso. apply N1. rewrite E. apply nth_In. rewrite map_length. lia.
Qed.
Lemma nodup_r {A} (l1 l2 : list A) : NoDup (l1 ++ l2) -> NoDup l2.
Proof. induction l1 as [|a l1 IH]; cbn; auto. intros N. inversion N; auto. Qed.
Lemma nodup_sep {A} (l1 l2 : list A) a : NoDup (l1 ++ l2) -> In a l2 -> ~ In a l1.
Proof.
  induction l1 as [|b l1 IH]; cbn; auto. intros N H [->|HI]; inversion N as [|? ? N1 N2]; subst; [apply N1, in_or_app; auto|].
  eapply IH; eauto.
Qed.
Lemma good_set n st T V C x v : good n st (T ++ V) C -> x < length V ->
  good n (set_val st (nth x (map fst V) 0) (Some v)) (T ++ setv x v V) C.
Proof.
  intros [G1 G2 G3 G4 G5 G6] L. rewrite map_app in G3.
  assert (In (nth x (map fst V) 0) (map fst V)) as HI by (apply nth_In; rewrite map_length; auto).
  pose proof (nodup_sep _ _ _ G3 HI) as NI. constructor; cbn; auto.
  - intros y. unfold upd. destruct (in_dec Nat.eq_dec y (map fst T)) as [HT|HT].
    + destruct (Nat.eqb_spec y (nth x (map fst V) 0)) as [->|]; [contradiction|]. rewrite G1. clear - HT.
      induction T as [|[z u] T IH]; cbn in *; [contradiction|]. destruct (Nat.eqb_spec y z); auto. destruct HT; [congruence|auto].
    + rewrite assoc_app by auto. rewrite assoc_setv by (auto; eapply nodup_r; eauto). rewrite G1, assoc_app by auto. reflexivity.
  - rewrite map_app, setv_fst. auto.
  - unfold below in *. apply Forall_app in G5 as [F1 F2]. apply Forall_app. split; auto.
    rewrite Forall_forall in *. intros [y u] H. cbn. assert (In y (map fst (setv x v V))) as H' by (apply in_map_iff; exists (y, u); auto).
    rewrite setv_fst in H'. apply in_map_iff in H' as (q & <- & HQ). apply F2; auto.
Qed.
Lemma good_var n st T V C x d : good n st (T ++ V) C -> x < length V ->
  the_val st (nth x (map fst V) 0) = Done (nth x (map snd V) d).
Proof.
  intros G L. pose proof (g_vd _ _ _ _ G) as N. rewrite map_app in N. apply (good_the _ _ _ _ _ _ G).
  rewrite assoc_app; [apply assoc_nth; auto; eapply nodup_r; eauto|]. eapply nodup_sep; eauto. apply nth_In. rewrite map_length. auto.
Qed.
Lemma good_con n st V C k : good n st V C -> k < length C ->
  the_ctx st (nth k (map fst C) 0) = Done (Some (nth k (map snd C) 0)).
Proof.
  intros G L. unfold the_ctx. rewrite (g_ctx _ _ _ _ G). rewrite (assoc_nth k C 0); auto. apply (g_cd _ _ _ _ G).
Qed.
Lemma set_same st n (v : AF S) : set_val (mkStore (s_w st) (s_val st) (s_ctx st)) n (Some v) = set_val st n (Some v).
Proof. destruct st; reflexivity. Qed.

Definition s_ok (n : nat) (s : simple S) (st : store S) (V : list (nat * AF S)) (C : list (nat * nat)) : Prop :=
  let '(n', p, it, vars', ctxs') := c_simple n (map fst V) (map fst C) s in
  match m_simple (map snd V) (map snd C) s (s_w st) with
  | Ok (it', env', cenv', w') => exists st' V' C', run st p = Done st' /\ s_w st' = w' /\ good n' st' V' C' /\
      map fst V' = vars' /\ map snd V' = env' /\ map fst C' = ctxs' /\ map snd C' = cenv' /\
      it' = it /\ it = repeat IV (new_v s) ++ repeat IK (new_k s) /\ length V' = new_v s + length V /\ length C' = new_k s + length C
  | Panic p' => run st p = Err (RustPanic p')
  end.

Ltac fin := split; [reflexivity|]; split; [reflexivity|]; split; [eauto|]; repeat split.

(** The part of a statement that evaluates an expression, and the end of its temporaries *)
Lemma part n e st V C : good n st V C -> ok_expr (length V) e = true ->
  let '(n1, p, r, t) := c_expr n (map fst V) e in
  match m_expr (map snd V) e (s_w st) with
  | Ok (v, w') => exists st' T', run st p = Done st' /\ s_w st' = w' /\ map fst T' = t /\ good n1 st' (T' ++ V) C /\ the_val st' r = Done v /\
      match e with EVar _ => T' = [] | _ => exists T'', T' = (r, v) :: T'' end
  | Panic p' => run st p = Err (RustPanic p')
  end.
Proof.
  intros G HK. pose proof (expr_ok e n (map fst V) st [] V C eq_refl) as X. rewrite map_length in X. specialize (X HK G).
  unfold e_ok in X. destruct (c_expr n (map fst V) e) as [[[n1 p] r] t].
  destruct (m_expr (map snd V) e (s_w st)) as [[v w']|q]; [|exact X].
  destruct X as (st' & T' & R & W & Mt & L & G' & F & A & E). exists st', T'.
  split; [auto|]. split; [auto|]. split; [auto|]. split; [exact G'|]. split; [eapply good_the; eauto|exact E].
Qed.

Lemma init_ok n e st V C : good n st V C -> ok_expr (length V) e = true -> (forall y, e <> EVar y) ->
  let '(n1, p, r, t) := c_expr n (map fst V) e in
  match m_expr (map snd V) e (s_w st) with
  | Ok (v, w') => exists st', run st (p ++ map SDtor (tl t)) = Done st' /\ s_w st' = w' /\ good n1 st' ((r, v) :: V) C
  | Panic p' => run st (p ++ map SDtor (tl t)) = Err (RustPanic p')
  end.
Proof.
  intros G HK HE. pose proof (part n e st V C G HK) as X. destruct (c_expr n (map fst V) e) as [[[n1 p] r] t].
  destruct (m_expr (map snd V) e (s_w st)) as [[v w']|q]; [|now apply run_app_err].
  destruct X as (st1 & T1 & R1 & W1 & M1 & G1 & _ & E).
  assert (exists T'', T1 = (r, v) :: T'') as (T'' & ->) by (destruct e; auto; elim (HE x); reflexivity).
  destruct (good_dtors T'' n1 st1 [(r, v)] V C G1) as (st2 & R2 & W2 & G2). exists st2.
  rewrite (run_app_done _ _ _ _ R1). rewrite <- M1. cbn [map tl fst]. split; [exact R2|]. split; [congruence|exact G2].
Qed.

Lemma assign_ok n e x st V C : good n st V C -> ok_expr (length V) e = true -> (forall y, e <> EVar y) -> x < length V ->
  let '(n1, p, r, t) := c_expr n (map fst V) e in
  match m_expr (map snd V) e (s_w st) with
  | Ok (v, w') => exists st', run st (p ++ [SMoveAssign (nth x (map fst V) 0) r] ++ map SDtor t) = Done st' /\ s_w st' = w' /\ good n1 st' (setv x v V) C
  | Panic p' => run st (p ++ [SMoveAssign (nth x (map fst V) 0) r] ++ map SDtor t) = Err (RustPanic p')
  end.
Proof.
  intros G HK HE Hx. pose proof (part n e st V C G HK) as X. destruct (c_expr n (map fst V) e) as [[[n1 p] r] t].
  destruct (m_expr (map snd V) e (s_w st)) as [[v w']|q]; [|now apply run_app_err].
  destruct X as (st1 & T1 & R1 & W1 & M1 & G1 & A1 & E).
  assert (exists T'', T1 = (r, v) :: T'') as (T'' & ->) by (destruct e; auto; elim (HE x0); reflexivity).
  rewrite (run_app_done _ _ _ _ R1). cbn [app value_run value_step].
  rewrite (good_var _ _ _ _ _ x zero G1 Hx), A1. cbn [obind].
  pose proof (good_set _ _ _ _ _ x v G1 Hx) as G2.
  pose proof (good_set _ _ [] (((r, v) :: T'') ++ setv x v V) _ 0 zero G2) as G3. cbn [nth map fst app setv length] in G3.
  specialize (G3 ltac:(lia)).
  destruct (good_dtors ((r, zero) :: T'') _ _ [] _ _ G3) as (st2 & R2 & W2 & G4). exists st2.
  rewrite <- M1. split; [exact R2|]. split; [rewrite W2; exact W1|exact G4].
Qed.

Lemma simple_ok n s st V C : good n st V C -> ok_simple (length V) (length C) s = true -> s_ok n s st V C.
Proof.
  intros G HK. unfold s_ok. destruct s as [|e|y|k| |x e|x y|k e|e]; cbn [ok_simple] in HK.
  - cbn. rewrite (good_fresh _ _ _ _ G). cbn. exists (set_val st n (Some zero)), ((n, zero) :: V), C.
    split; [reflexivity|]. split; [reflexivity|]. split; [rewrite <- set_same; apply good_new; auto|]. repeat split.
  - assert ((exists y, e = EVar y) \/ forall y, e <> EVar y) as [(y & ->)|HE] by (destruct e; eauto; right; discriminate).
    + cbn [c_simple CxxSpec.m_simple CxxSpec.m_expr mbind mret]. cbn [ok_expr] in HK. apply Nat.ltb_lt in HK.
      cbn [value_run value_step]. rewrite (good_fresh _ _ _ _ G). rewrite (good_var n st [] V C y zero G HK). cbn [obind].
      eexists (set_val st n _), ((n, nth y (map snd V) zero) :: V), C. split; [reflexivity|]. split; [reflexivity|].
      split; [rewrite <- set_same; apply good_new; auto|]. repeat split.
    + pose proof (init_ok n e st V C G HK HE) as X.
      assert (c_simple n (map fst V) (map fst C) (DInit e) =
        let '(n1, p, r, t) := c_expr n (map fst V) e in (n1, p ++ map SDtor (tl t), [IV], r :: map fst V, map fst C)) as ->
        by (destruct e; auto; elim (HE x); reflexivity).
      destruct (c_expr n (map fst V) e) as [[[n1 p] r] t]. cbn [CxxSpec.m_simple]. unfold mbind.
      destruct (m_expr (map snd V) e (s_w st)) as [[v w']|q]; [|exact X]. destruct X as (st' & R & W & G').
      cbn [mret]. exists st', ((r, v) :: V), C. split; [auto|]. split; [auto|]. split; [auto|]. repeat split.
  - apply Nat.ltb_lt in HK. cbn [c_simple CxxSpec.m_simple mret value_run value_step]. rewrite (good_fresh _ _ _ _ G).
    rewrite (good_var n st [] V C y zero G HK). cbn [obind].
    eexists _, ((n, nth y (map snd V) zero) :: setv y zero V), C. split; [reflexivity|]. split; [reflexivity|].
    split. { pose proof (good_new n st V C (nth y (map snd V) zero) (s_w st) G) as G1. rewrite set_same in G1.
      apply (good_set _ _ [(n, nth y (map snd V) zero)] V C y zero G1 HK). }
    cbn. rewrite setv_fst, setv_snd. repeat split. rewrite <- (map_length fst (setv _ _ _)), setv_fst, map_length. reflexivity.
  - apply Nat.ltb_lt in HK. cbn [c_simple CxxSpec.m_simple]. rewrite run_one. cbn [value_step]. rewrite (good_fresh _ _ _ _ G), (good_con _ _ _ _ _ G HK).
    cbn [obind usable]. unfold call, mbind. destruct (new_indep So Some (nth k (map snd C) 0) (f_zero So) (s_w st)) as [[v w']|q]; [|reflexivity].
    cbn [mret obind fst snd]. eexists _, ((n, v) :: V), C. split; [reflexivity|]. split; [reflexivity|]. split; [apply good_new; auto|]. repeat split.
  - cbn [c_simple CxxSpec.m_simple]. rewrite run_one. cbn [value_step]. pose proof G as [G1 G2 G3 G4 G5 G6].
    unfold fresh_ctx. rewrite G2, (assoc_none n C) by (apply below_fresh; auto). cbn [option_map obind].
    unfold call, mbind. destruct (ctx_new (s_w st)) as [[c w']|q]; [|reflexivity]. cbn [mret obind fst snd].
    eexists _, V, ((n, c) :: C). split; [reflexivity|]. split; [reflexivity|]. split; [|repeat split].
    constructor; cbn; auto.
    + intros k. unfold upd. destruct (k =? n); auto.
    + constructor; auto. apply below_fresh; auto.
    + eapply below_le; eauto; lia.
    + constructor; [cbn; lia|]. eapply below_le; eauto; lia.
  - apply andb_prop in HK as [HK H3]. apply andb_prop in HK as [H1 H2]. apply Nat.ltb_lt in H1.
    assert ((exists y, e = EVar y) \/ forall y, e <> EVar y) as [(y & ->)|HE] by (destruct e; eauto; right; discriminate).
    + cbn [ok_expr] in H2. apply Nat.ltb_lt in H2. cbn [c_simple CxxSpec.m_simple CxxSpec.m_expr mbind mret value_run value_step].
      rewrite (good_var n st [] V C x zero G H1), (good_var n st [] V C y zero G H2). cbn [obind].
      eexists _, (setv x (nth y (map snd V) zero) V), C. split; [reflexivity|]. split; [reflexivity|].
      split; [apply (good_set n st [] V C x _ G H1)|]. rewrite setv_fst, setv_snd. repeat split.
      rewrite <- (map_length fst (setv _ _ _)), setv_fst, map_length. reflexivity.
    + pose proof (assign_ok n e x st V C G H2 HE H1) as X.
      assert (c_simple n (map fst V) (map fst C) (Assign x e) =
        let '(n1, p, r, t) := c_expr n (map fst V) e in
        (n1, p ++ [SMoveAssign (nth x (map fst V) 0) r] ++ map SDtor t, [], map fst V, map fst C)) as ->
        by (destruct e as [z| | | | |]; auto; elim (HE z); reflexivity).
      destruct (c_expr n (map fst V) e) as [[[n1 p] r] t]. cbn [CxxSpec.m_simple]. unfold mbind.
      destruct (m_expr (map snd V) e (s_w st)) as [[v w']|q]; [|exact X]. destruct X as (st' & R & W & G').
      cbn [mret]. exists st', (setv x v V), C. split; [auto|]. split; [auto|]. split; [auto|]. rewrite setv_fst, setv_snd. repeat split.
      rewrite <- (map_length fst (setv _ _ _)), setv_fst, map_length. reflexivity.
  - apply andb_prop in HK as [H1 H2]. apply Nat.ltb_lt in H1, H2. cbn [c_simple CxxSpec.m_simple mret value_run value_step].
    rewrite (good_var n st [] V C x zero G H1), (good_var n st [] V C y zero G H2). cbn [obind].
    pose proof (good_set n st [] V C x (nth y (map snd V) zero) G H1) as G1.
    assert (length (setv x (nth y (map snd V) zero) V) = length V) as L1
      by (rewrite <- (map_length fst (setv _ _ _)), setv_fst, map_length; reflexivity).
    pose proof (good_set n _ [] _ C y zero G1 ltac:(cbn; lia)) as G2. rewrite setv_fst in G2. cbn [app] in G2.
    eexists _, _, C. split; [reflexivity|]. split; [reflexivity|]. split; [exact G2|].
    rewrite !setv_fst, !setv_snd. repeat split. rewrite <- (map_length fst (setv y _ _)), setv_fst, map_length. exact L1.
  - apply andb_prop in HK as [H1 H2]. apply Nat.ltb_lt in H1. pose proof (part n e st V C G H2) as X.
    cbn [c_simple CxxSpec.m_simple]. destruct (c_expr n (map fst V) e) as [[[n1 p] r] t]. unfold mbind.
    destruct (m_expr (map snd V) e (s_w st)) as [[v w1]|q]; [|now apply run_app_err].
    destruct X as (st1 & T1 & R1 & W1 & M1 & G1 & A1 & _). rewrite (run_app_done _ _ _ _ R1). cbn [app value_run value_step].
    rewrite (good_con _ _ _ _ _ G1 H1), A1. cbn [obind usable]. unfold call. rewrite W1.
    destruct (set_dep Some (nth k (map snd C) 0) v w1) as [[u w2]|q]; [|reflexivity]. cbn [obind fst snd mret].
    destruct (good_dtors T1 _ _ [] V C (good_world _ _ _ _ w2 G1)) as (st2 & R2 & W2 & G2). rewrite <- M1.
    exists st2, V, C. split; [exact R2|]. split; [exact W2|]. split; [exact G2|]. repeat split.
  - pose proof (part n e st V C G HK) as X.
    cbn [c_simple CxxSpec.m_simple]. destruct (c_expr n (map fst V) e) as [[[n1 p] r] t]. unfold mbind.
    destruct (m_expr (map snd V) e (s_w st)) as [[v w1]|q]; [|now apply run_app_err].
    destruct X as (st1 & T1 & R1 & W1 & M1 & G1 & A1 & _). rewrite (run_app_done _ _ _ _ R1). cbn [mret].
    destruct (good_dtors T1 _ _ [] V C G1) as (st2 & R2 & W2 & G2). rewrite <- M1.
    exists st2, V, C. split; [exact R2|]. split; [congruence|]. split; [exact G2|]. repeat split.
Qed.

(** ** Scopes *)
Fixpoint cv (its : list item) : nat := match its with [] => 0 | IV :: l => Datatypes.S (cv l) | IK :: l => cv l end.
Fixpoint ck (its : list item) : nat := match its with [] => 0 | IK :: l => Datatypes.S (ck l) | IV :: l => ck l end.
Lemma cv_new s its : cv ((repeat IV (new_v s) ++ repeat IK (new_k s)) ++ its) = new_v (S := S) s + cv its.
Proof. destruct s; reflexivity. Qed.
Lemma ck_new s its : ck ((repeat IV (new_v s) ++ repeat IK (new_k s)) ++ its) = new_k (S := S) s + ck its.
Proof. destruct s; reflexivity. Qed.
Lemma c_simple_skip n vars ctxs s : let '(_, _, _, vars', ctxs') := c_simple (S := S) n vars ctxs s in
  skipn (new_v s) vars' = vars /\ skipn (new_k s) ctxs' = ctxs.
Proof.
  destruct s as [|e|y|k| |x e|x y|k e|e]; cbn; auto; destruct e; try (split; reflexivity);
    cbn -[c_expr]; match goal with |- context [c_expr n vars ?e] => destruct (c_expr n vars e) as [[[n1 p] r] t] end; split; reflexivity.
Qed.
Lemma good_kdtor n st V C k c : good n st V ((k, c) :: C) ->
  good n (set_ctx st k None) V C.
Proof.
  intros [G1 G2 G3 G4 G5 G6]. cbn in G4. inversion G4; subst. inversion G6; subst. constructor; cbn; auto.
  intros j. unfold upd. rewrite G2. cbn. destruct (Nat.eqb_spec j k) as [->|]; auto. rewrite assoc_none; auto.
Qed.

Lemma skip_skip {A} (a b : nat) : forall l : list A, skipn b (skipn a l) = skipn (a + b) l.
Proof. induction a as [|a IH]; intros [|x l]; cbn; auto; destruct b; reflexivity. Qed.
Definition b_ok (n n' : nat) (its : list item) (p : list (stmt S)) (m : M (world S) (list (AF S) * list nat)) (st : store S) (V : list (nat * AF S)) (C : list (nat * nat)) : Prop :=
  match m (s_w st) with
  | Ok (env', cenv', w') => exists st' V' C', run st p = Done st' /\ s_w st' = w' /\ good n' st' V' C' /\
      map fst V' = skipn (cv its) (map fst V) /\ map fst C' = skipn (ck its) (map fst C) /\ map snd V' = env' /\ map snd C' = cenv'
  | Panic p' => run st p = Err (RustPanic p')
  end.
Lemma end_ok its : forall n st V C, good n st V C -> cv its <= length V -> ck its <= length C ->
  b_ok n n its (c_end its (map fst V) (map fst C)) (m_end its (map snd V) (map snd C)) st V C.
Proof.
  induction its as [|[] its IH]; intros n st V C G LV LC; unfold b_ok.
  - cbn. exists st, V, C. repeat split; auto; apply G.
  - destruct V as [|[x v] V]; [cbn in LV; lia|]. cbn in LV.
    destruct (good_dtor n st [] x v V C G) as (st1 & R1 & W1 & G1). cbn [map c_end m_end hd tl snd fst cv ck skipn].
    specialize (IH n st1 V C G1 ltac:(lia) LC). unfold b_ok in IH. rewrite W1 in IH. cbn [value_run].
    rewrite R1. cbn [obind]. exact IH.
  - destruct C as [|[k c] C]; [cbn in LC; lia|]. cbn in LC. cbn [map c_end m_end hd tl snd fst cv ck skipn value_run value_step].
    pose proof (good_con n st V _ 0 G ltac:(cbn; lia)) as E. cbn in E. rewrite E. cbn [obind release]. unfold call, mbind.
    destruct (ctx_drop c (s_w st)) as [[u w1]|q]; [|reflexivity]. cbn [obind snd].
    pose proof (good_kdtor _ _ _ _ _ _ (good_world _ _ _ _ w1 G)) as G1.
    specialize (IH n _ V C G1 LV ltac:(lia)). exact IH.
Qed.

Lemma block_ok b : forall n its st V C, good n st V C -> cv its <= length V -> ck its <= length C ->
  ok_block (length V) (length C) b = true ->
  let '(n', p) := c_block n its (map fst V) (map fst C) b in
  b_ok n n' its p (m_block its (map snd V) (map snd C) b) st V C.
Proof.
  induction b as [|s b IH|b1 IH1 b2 IH2]; intros n its st V C G LV LC HK.
  - cbn [c_block CxxSpec.m_block]. apply end_ok; auto.
  - cbn [ok_block] in HK. apply andb_prop in HK as [H1 H2]. cbn [c_block CxxSpec.m_block].
    pose proof (simple_ok n s st V C G H1) as X. unfold s_ok in X. pose proof (c_simple_skip n (map fst V) (map fst C) s) as SK.
    destruct (c_simple n (map fst V) (map fst C) s) as [[[[n1 p1] it] vars'] ctxs']. destruct SK as [SK1 SK2].
    destruct (c_block n1 (it ++ its) vars' ctxs' b) as [n2 p2] eqn:EB. unfold b_ok, mbind.
    destruct (m_simple (map snd V) (map snd C) s (s_w st)) as [[[[it' env'] cenv'] w']|q]; [|now apply run_app_err].
    destruct X as (st1 & V1 & C1 & R1 & W1 & G1 & M1 & M2 & M3 & M4 & -> & IT & L1 & L2). cbn [fst snd]. subst.
    rewrite (run_app_done _ _ _ _ R1).
    specialize (IH n1 ((repeat IV (new_v s) ++ repeat IK (new_k s)) ++ its) st1 V1 C1 G1). rewrite cv_new, ck_new, L1, L2 in IH.
    specialize (IH ltac:(lia) ltac:(lia) H2). rewrite EB in IH. unfold b_ok in IH. rewrite cv_new, ck_new in IH.
    rewrite <- SK1, <- SK2. rewrite !skip_skip. exact IH.
  - cbn [ok_block] in HK. apply andb_prop in HK as [H1 H2]. cbn [c_block CxxSpec.m_block].
    pose proof (IH1 n [] st V C G ltac:(cbn; lia) ltac:(cbn; lia) H1) as X.
    destruct (c_block n [] (map fst V) (map fst C) b1) as [n1 p1]. destruct (c_block n1 its (map fst V) (map fst C) b2) as [n2 p2] eqn:EB.
    unfold b_ok in *. unfold mbind. destruct (m_block [] (map snd V) (map snd C) b1 (s_w st)) as [[[env' cenv'] w']|q]; [|now apply run_app_err].
    destruct X as (st1 & V1 & C1 & R1 & W1 & G1 & M1 & M2 & M3 & M4). cbn in M1, M2. cbn [fst snd]. subst.
    assert (length V1 = length V) as L1 by (rewrite <- (map_length fst V1), M1, map_length; auto).
    assert (length C1 = length C) as L2 by (rewrite <- (map_length fst C1), M2, map_length; auto).
    specialize (IH2 n1 its st1 V1 C1 G1). rewrite L1, L2 in IH2. specialize (IH2 LV LC H2). rewrite M1, M2, EB in IH2.
    rewrite (run_app_done _ _ _ _ R1). exact IH2.
Qed.

Lemma program_run b w : ok_block 0 0 b = true ->
  match meaning So left b w with
  | Ok (_, w') => exists st, run (store0 w) (program b) = Done st /\ s_w st = w' /\ (forall x, s_val st x = None) /\ (forall k, s_ctx st k = None)
  | Panic p => run (store0 w) (program b) = Err (RustPanic p)
  end.
Proof.
  intros HK. assert (good 0 (store0 w) [] []) as G by (constructor; cbn; auto; constructor).
  pose proof (block_ok b 0 [] (store0 w) [] [] G ltac:(cbn; lia) ltac:(cbn; lia) HK) as X. unfold meaning, program, mbind, mret.
  cbn [map] in X. destruct (c_block 0 [] [] [] b) as [n' p]. unfold b_ok in X. cbn [snd]. change (s_w (store0 w)) with w in X.
  destruct (m_block [] [] [] b w) as [[[e c] w']|q]; [|exact X]. destruct X as (st' & V' & C' & R & W & G' & M1 & M2 & _).
  cbn in M1, M2. apply map_eq_nil in M1, M2. subst. exists st'. split; auto. split; auto. split; intros x.
  - rewrite (g_val _ _ _ _ G'). reflexivity.
  - rewrite (g_ctx _ _ _ _ G'). reflexivity.
Qed.
End Sim.
