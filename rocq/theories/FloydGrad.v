(** The gradient of the shortest-path example: what the stages compute one after the other. *)
From Coq Require Import Reals Lra List Arith ZArith NArith Bool Lia.
From Verif Require Import Base Float Operation Tape AContext Methods Function Spec TapeFacts
  RealInst DerivSpec Param Instances FunctionFacts RecordFacts ReplayFacts Replay2 Shape DerivFacts LinearFacts Matrix MatrixFacts Jacobian JacobianFacts
  AbsNormal AnfSpec RVec AnfFacts AnfFacts2 Checkpoint CheckSpec CheckMain GenJac GenSpec GenExplicit
  StraightSpec StraightFacts StraightMain TapeShape DriverSpec DriverPanics MethodSpec Build BuildFacts PairBuild
  Programs FloydSpec FloydFacts FloydMain FloydPair FloydGraph.
Import ListNotations.
Open Scope R_scope.

(** ** The closures depend on their arguments only *)
Section World.
Context {F : Type} (Fo : Fops F).

Lemma record0_world (f : func F) w1 w2 :
  match record0 Fo f w1 with
  | Ok (t, _) => exists w2', record0 Fo f w2 = Ok (t, w2')
  | Panic p => record0 Fo f w2 = Panic p
  end.
Proof.
  unfold record0, mbind, mlift. destruct (fn_n f) as [n|p]; [|reflexivity].
  exact (fn_tape_world Fo f _ w1 w2).
Qed.

Definition fwp (stages : list (func F)) (st : nat * list F) : res (nat * list F) :=
  match (f <~ mlift (unwrap (nth_error stages (fst st))) ;; y <~ replay Fo f (snd st) ;; mret (fst st + 1, y)%nat) world0 with
  | Ok (r, _) => Ok r
  | Panic p => Panic p
  end.
Definition rvp (red : list (list (nat * list F)) -> list (nat * list F)) (stages : list (func F)) (st : nat * list F) (g : gjac F) : res (gjac F) :=
  match (f <~ mlift (unwrap (nth_error stages (fst st))) ;; t <~ record0 Fo f ;;
    t' <~ mlift (tape_zero_order Fo t (snd st)) ;;
    mlift (generalized_jacobian_tape Fo red t' (repeat (f_zero Fo) (length (snd st))) [0%N] (Some g))) world0 with
  | Ok (r, _) => Ok r
  | Panic p => Panic p
  end.

Lemma forward_acts stages : acts (fun _ : world F => True)
  (fun st : nat * list F => f <~ mlift (unwrap (nth_error stages (fst st))) ;; y <~ replay Fo f (snd st) ;; mret (fst st + 1, y)%nat)
  (fwp stages).
Proof.
  intros [i x] w _. unfold fwp. cbn [fst snd]. unfold mbind, mlift. destruct (nth_error stages i) as [f|]; cbn [unwrap]; [|reflexivity].
  unfold replay, mbind, mlift. pose proof (record0_world f world0 w) as H.
  destruct (record0 Fo f world0) as [[t w0]|p]; [|rewrite H; reflexivity]. destruct H as (w2 & ->).
  destruct (tape_zero_order Fo t x) as [t'|p]; [|reflexivity].
  destruct (tape_y t') as [y|p]; [|reflexivity]. cbn. unfold mret. eauto.
Qed.
Lemma reverse_acts red stages : acts2 (fun _ : world F => True)
  (fun (st : nat * list F) (g : gjac F) => f <~ mlift (unwrap (nth_error stages (fst st))) ;; t <~ record0 Fo f ;;
    t' <~ mlift (tape_zero_order Fo t (snd st)) ;;
    mlift (generalized_jacobian_tape Fo red t' (repeat (f_zero Fo) (length (snd st))) [0%N] (Some g)))
  (rvp red stages).
Proof.
  intros [[i x] g] w _. unfold rvp. cbn [fst snd]. unfold mbind, mlift. destruct (nth_error stages i) as [f|]; cbn [unwrap]; [|reflexivity].
  pose proof (record0_world f world0 w) as H.
  destruct (record0 Fo f world0) as [[t w0]|p]; [|rewrite H; reflexivity]. destruct H as (w2 & ->).
  destruct (tape_zero_order Fo t x) as [t'|p]; [|reflexivity].
  destruct (generalized_jacobian_tape _ _ _ _ _ _) as [y|p]; [|reflexivity]. cbn. eauto.
Qed.

Lemma mbind_ok {St A B} (m : M St A) (k : A -> M St B) s a s' : m s = Ok (a, s') -> mbind m k s = k a s'.
Proof. unfold mbind. intros ->. reflexivity. Qed.
Lemma mbind_panic {St A B} (m : M St A) (k : A -> M St B) s p : m s = Panic p -> mbind m k s = Panic p.
Proof. unfold mbind. intros ->. reflexivity. Qed.

(** The gradient is the reverse fold over the stages. *)
Lemma fw_gradient_fold red est n nlights inf (edges : list edge) exits params w :
  accurate est (Z.of_nat (n + 2) + 1) -> (Z.of_nat (n + 2) + 1 <= 2 ^ 32)%Z -> (2 <= n)%nat ->
  match reverse_fold (fwp (fw_stages Fo n nlights inf edges exits)) (rvp red (fw_stages Fo n nlights inf edges exits))
     (fun _ => Ok (mkG (m_id Fo 1) [f_zero Fo] 0)) (n + 2) (0%nat, params) with
  | Ok g => exists w', fw_gradient Fo red est n nlights inf edges exits params w =
      Ok (m_tab (m_cols (g_hom g)) (m_rows (g_hom g)) (fun i j => ent Fo (g_hom g) j i), w')
  | Panic p => fw_gradient Fo red est n nlights inf edges exits params w = Panic p
  end.
Proof.
  intros HA HN Hn.
  assert (HS := reverse_sequence_spec est _ _ (fun _ : nat * list F => mret (mkG (m_id Fo 1) [f_zero Fo] 0%nat))
     (fwp (fw_stages Fo n nlights inf edges exits)) (rvp red (fw_stages Fo n nlights inf edges exits))
     (fun _ => Ok (mkG (m_id Fo 1) [f_zero Fo] 0%nat)) (fun _ : world F => True)
     (forward_acts _) (reverse_acts red _)).
  specialize (HS ltac:(intros a s _; cbn; unfold mret; eauto) (n + 2)%nat n HA HN Hn (0%nat, params) w I). cbn beta in HS.
  unfold fw_gradient. cbn zeta.
  destruct (reverse_fold _ _ _ _ _) as [g|p].
  - destruct HS as (w' & E & _). exists w'. refine (mbind_ok _ _ _ _ _ E).
  - refine (mbind_panic _ _ _ _ HS).
Qed.
End World.

(** ** One stage over R *)
Section Stage.
Context (red : list (list (nat * list R)) -> list (nat * list R)) (HR : rayon red).
Context (stages : list (func R)).

Lemma fwp_ok i f n x y0 y : nth_error stages i = Some f -> straight_f f -> fn_n f = Ok n -> length x = n ->
  v_eval Rops f (repeat 0 n) = Ok y0 -> v_eval Rops f x = Ok y -> fwp Rops stages (i, x) = Ok (i + 1, y)%nat.
Proof.
  intros Ei HS En Lx E0 E. unfold fwp. cbn [fst snd]. unfold mbind, mlift. rewrite Ei. cbn [unwrap].
  destruct (replay_value f n x y0 y world0 HS En Lx E0 E) as (w' & ->). reflexivity.
Qed.

Lemma id_shape : shape (m_id Rops 1) 1 1.
Proof. apply shape_id. Qed.

(** A stage in the reverse sweep. *)
Lemma rvp_ok i n m p x y0 y g : nth_error stages i = Some (Simple n m p) -> quiet p -> straight p -> length x = n ->
  v_eval Rops (Simple n m p) (repeat 0 n) = Ok y0 -> v_eval Rops (Simple n m p) x = Ok y ->
  shape (g_hom g) 1 (length (rets p)) -> length (g_inh g) = 1%nat ->
  exists G t w', rvp Rops red stages (i, x) g = Ok G /\ shape (g_hom G) 1 n /\ length (g_inh G) = 1%nat /\
    fn_tape Rops (Simple n m p) x world0 = Ok (t, w') /\ length (t_deps t) = length (rets p) /\
    forall v, length v = n -> exists ys, pair_eval right_if_positive (Simple n m p) x v = Ok ys /\
      length ys = length (rets p) /\
      (forall a b ra rb d, nth_error (rets p) a = Some ra -> nth_error (rets p) b = Some rb ->
         nth_error (t_deps t) a = Some d -> nth_error (t_deps t) b = Some d -> a = b \/ ra = rb) /\
      (forall a b r, nth_error (rets p) a = Some r -> nth_error (rets p) b = Some r ->
         nth_error (t_deps t) a = nth_error (t_deps t) b \/ nth a (map snd ys) 0 = 0) /\
      mulv (g_hom G) v = mulv (seed_rows (t_deps t) (g_hom g)) (map snd ys).
Proof.
  intros Ei HQ HS Lx E0 E Sg Lg. set (f := Simple n m p) in *.
  assert (exists t0 w0, fn_tape Rops f (repeat 0 n) world0 = Ok (t0, w0)) as (t0 & w0 & HT0).
  { apply record_iff. exists y0, world0. rewrite eval_float_v, E0. reflexivity. }
  destruct (replay_is_record Rops f (repeat 0 n) world0 t0 w0 x world0 HT0) as (t & w' & HT & HZ).
  { now rewrite repeat_length. } { left. exact HS. }
  destruct (fn_tape_wf Rops _ _ _ _ _ HT) as (HRec & Hd & Nx). pose proof HRec as [W _].
  destruct (recorded_regs (fun _ => right_if_positive) n m p x (repeat 0 n) world0 t w' HQ HT) as (dy & _ & AO & LD & _).
  { rewrite repeat_length. auto. }
  assert (next_ok (num_deps t) (Some g)) as NO.
  { cbn. pose proof Sg as (_ & R1 & _). rewrite R1. unfold num_deps. rewrite LD. split; [exact Sg|auto]. }
  destruct (gj_straight_zero red HR f x world0 t w' HT AO [0%N] (Some g)) as (G & EG & HG).
  { intros k. unfold bit. destruct (k / 8)%nat as [|q]; cbn; [|destruct q; reflexivity]. destruct (N.of_nat (k mod 8)); reflexivity. }
  { exact NO. }
  destruct (gj_tape_total Rops red HR t (repeat 0 (length x)) [0%N] (Some g)) as (G' & EG' & WG & RG & CG & LG & _); auto.
  { cbn. apply Sg. } { rewrite repeat_length. auto. }
  { cbn. split; [unfold num_deps; rewrite LD; apply Sg|]. destruct Sg as (_ & -> & _). auto. }
  assert (G' = G) as -> by congruence.
  exists G, t, w'. split.
  { unfold rvp. cbn [fst snd]. unfold mbind, mlift. rewrite Ei. cbn [unwrap]. unfold record0, mbind, mlift. fold f.
    replace (fn_n f) with (Ok n) by reflexivity. change (f_zero Rops) with 0. rewrite HT0, HZ.
    rewrite EG. reflexivity. }
  cbn [rows_out] in RG, LG. destruct Sg as (WSg & RSg & CSg).
  split; [split; [exact WG|split; congruence]|]. split; [congruence|]. split; [exact HT|]. split; [auto|].
  intros v Lv. destruct (HG v) as (d & Ed & Ld & EM); [congruence|].
  destruct (recorded_regs (fun _ => right_if_positive) n m p x v world0 t w' HQ HT) as (dy' & Ed' & _ & _ & _ & D1 & D2); [congruence|].
  assert (dy' = d) as -> by (unfold f in Ed; congruence).
  destruct (straight_pair right_if_positive f x v d Ed) as (ys & Ey & <-). rewrite map_length in Ld.
  exists ys. split; [exact Ey|]. split; [unfold num_deps in Ld; congruence|]. split; [exact D1|]. split; [exact D2|exact EM].
Qed.

(** ... when it returns different variables *)
Lemma rvp_nodup i n m p x y0 y g : nth_error stages i = Some (Simple n m p) -> quiet p -> straight p -> length x = n ->
  v_eval Rops (Simple n m p) (repeat 0 n) = Ok y0 -> v_eval Rops (Simple n m p) x = Ok y ->
  shape (g_hom g) 1 (length (rets p)) -> length (g_inh g) = 1%nat -> NoDup (rets p) ->
  exists G, rvp Rops red stages (i, x) g = Ok G /\ shape (g_hom G) 1 n /\ length (g_inh G) = 1%nat /\
    forall v, length v = n -> exists ys, pair_eval right_if_positive (Simple n m p) x v = Ok ys /\
      mulv (g_hom G) v = mulv (g_hom g) (map snd ys).
Proof.
  intros Ei HQ HS Lx E0 E Sg Lg ND.
  destruct (rvp_ok i n m p x y0 y g Ei HQ HS Lx E0 E Sg Lg) as (G & t & w' & EG & SG & LG & HT & LD & H).
  exists G. split; [auto|]. split; [auto|]. split; [auto|]. intros v Lv.
  destruct (H v Lv) as (ys & Ey & _ & D1 & _ & EM). exists ys. split; [auto|]. rewrite EM.
  rewrite seed_rows_nodup; auto; [|apply Sg|destruct Sg as (_ & _ & ->); auto].
  apply NoDup_nth_error. intros a b Ha Hab.
  destruct (nth_error (t_deps t) a) as [d|] eqn:Ed; [|apply nth_error_None in Ed; lia].
  destruct (nth_error (rets p) a) as [ra|] eqn:Ea; [|apply nth_error_None in Ea; lia].
  assert (b < length (t_deps t))%nat as Hb by (apply nth_error_Some; congruence).
  destruct (nth_error (rets p) b) as [rb|] eqn:Eb; [|apply nth_error_None in Eb; lia].
  destruct (D1 a b ra rb d Ea Eb Ed (eq_sym Hab)) as [|<-]; auto.
  rewrite NoDup_nth_error in ND. apply ND; [lia|congruence].
Qed.
End Stage.

(** ** The steps and the sum of squares *)
(** The derivative of the sum of squares along the branches the steps select: [m] steps from step [k]
    on, entries [x], derivatives [E]. *)
Fixpoint along (n : nat) (pairs : list (nat * nat)) (m k : nat) (x : list R) (E : nat -> nat -> R) : R :=
  match m with
  | O => pform (at_ n x) E pairs
  | S m' => along n pairs m' (S k) (stepv n k x) (sel (at_ n x) k E)
  end.

Lemma pform_ext n D E E' (pairs : list (nat * nat)) :
  Forall (fun uv => (fst uv < n)%nat /\ (snd uv < n)%nat) pairs ->
  (forall i j, (i < n)%nat -> (j < n)%nat -> E i j = E' i j) -> pform D E pairs = pform D E' pairs.
Proof.
  intros HP H. unfold pform. generalize 0 as r. induction HP as [|[u v] l [Hu Hv] HP IH]; intros r; cbn; auto.
  rewrite H by auto. apply IH.
Qed.
Lemma along_ext n pairs m : Forall (fun uv => (fst uv < n)%nat /\ (snd uv < n)%nat) pairs ->
  forall k x E E', (k + m <= n)%nat ->
  (forall i j, (i < n)%nat -> (j < n)%nat -> E i j = E' i j) -> along n pairs m k x E = along n pairs m k x E'.
Proof.
  intros HP. induction m as [|m IH]; intros k x E E' Hk H; cbn [along]; [now apply (pform_ext n)|].
  apply IH; [lia|]. intros i j Hi Hj. unfold sel. rewrite !H by (auto; lia). reflexivity.
Qed.

Lemma prod_lt n exits : Forall (fun u => (u < n)%nat) exits ->
  Forall (fun uv => (fst uv < n)%nat /\ (snd uv < n)%nat) (list_prod exits exits).
Proof.
  intros H. rewrite Forall_forall in *. intros [u v] Hin. apply in_prod_iff in Hin as [H1 H2]. cbn. auto.
Qed.

Definition nonneg_at (n : nat) (x : list R) : Prop := forall i j, (i < n)%nat -> (j < n)%nat -> 0 <= at_ n x i j.
Lemma nonneg_step n k x : length x = (n * n)%nat -> (k < n)%nat -> nonneg_at n x -> nonneg_at n (stepv n k x).
Proof.
  intros L Hk H i j Hi Hj. rewrite stepv_spec; auto. apply Rmin_glb; auto.
  pose proof (H i k Hi Hk). pose proof (H k j Hk Hj). lra.
Qed.

Section Sweep.
Context (red : list (list (nat * list R)) -> list (nat * list R)) (HR : rayon red).
Context (n nl : nat) (inf : R) (edges : list edge) (exits : list nat).
Context (He : Forall (fun u => (u < n)%nat) exits).
Let stages := fw_stages Rops n nl inf edges exits.
Let pairs := list_prod exits exits.
Let idg := fun _ : nat * list R => Ok (mkG (m_id Rops 1) [f_zero Rops] 0).

Lemma stage_step k : (k < n)%nat -> nth_error stages (k + 1) = Some (fw_step_fn n k).
Proof.
  intros Hk. unfold stages, fw_stages. rewrite Nat.add_comm. cbn [nth_error Nat.add].
  rewrite nth_error_app1 by (rewrite map_length, seq_length; auto).
  rewrite nth_error_map. rewrite (nth_error_nth' (seq 0 n) 0%nat) by (rewrite seq_length; auto).
  rewrite seq_nth by auto. reflexivity.
Qed.
Lemma stage_last : nth_error stages (n + 1) = Some (fw_badness_fn Rops n exits).
Proof.
  unfold stages, fw_stages. rewrite Nat.add_comm. cbn [nth_error Nat.add].
  rewrite nth_error_app2 by (rewrite map_length, seq_length; auto).
  rewrite map_length, seq_length, Nat.sub_diag. reflexivity.
Qed.

Lemma rets_badness : length (rets (b_body (n * n) (fw_badness Rops n exits))) = 1%nat.
Proof.
  set (z := repeat 0 (n * n)).
  assert (length z = (n * n)%nat) as Lz by apply repeat_length.
  assert (exists t0 w0, fn_tape Rops (fw_badness_fn Rops n exits) z world0 = Ok (t0, w0)) as (t0 & w0 & HT0).
  { apply record_iff. exists [sumsq (at_ n z) pairs], world0. rewrite eval_float_v, badness_value; auto. }
  destruct (recorded_regs (fun _ => right_if_positive) _ _ _ _ z world0 t0 w0 (quiet_badness n exits) HT0 eq_refl)
    as (dy & Ed & _ & LD & Ldy & _).
  destruct (straight_pair right_if_positive _ z z dy Ed) as (ys & Ey & <-).
  destruct (badness_pairs n exits z z Lz Lz He) as (s & Es & _).
  unfold fw_badness_fn in Es. rewrite Es in Ey. injection Ey as <-. rewrite <- Ldy. reflexivity.
Qed.
Lemma rets_step k : (k < n)%nat -> length (rets (b_body (n * n) (fw_step (F := R) n k))) = (n * n)%nat.
Proof.
  intros Hk. set (z := repeat 0 (n * n)).
  assert (length z = (n * n)%nat) as Lz by apply repeat_length.
  assert (exists t0 w0, fn_tape Rops (fw_step_fn n k) z world0 = Ok (t0, w0)) as (t0 & w0 & HT0).
  { apply record_iff. exists (stepv n k z), world0. rewrite eval_float_v, step_value; auto. }
  destruct (recorded_regs (fun _ => right_if_positive) _ _ _ _ z world0 t0 w0 (quiet_step n k) HT0 eq_refl)
    as (dy & Ed & _ & LD & Ldy & _).
  destruct (straight_pair right_if_positive _ z z dy Ed) as (ys & Ey & <-).
  destruct (step_pairs n k z z Lz Lz Hk) as (ys' & Es & L' & _).
  { unfold z, at_. rewrite nth_repeat. lra. }
  unfold fw_step_fn in Es. rewrite Es in Ey. injection Ey as <-. rewrite <- Ldy, map_length. exact L'.
Qed.

Lemma mulv_id1 a : mulv (m_id Rops 1) [a] = [a].
Proof. cbn. f_equal. ring. Qed.

Lemma sweep m : forall k x, (k + m = n)%nat -> length x = (n * n)%nat -> nonneg_at n x ->
  exists G, reverse_fold (fwp Rops stages) (rvp Rops red stages) idg (m + 1) ((k + 1)%nat, x) = Ok G /\
    shape (g_hom G) 1 (n * n) /\ length (g_inh G) = 1%nat /\
    forall e, length e = (n * n)%nat -> mulv (g_hom G) e = [along n pairs m k x (at_ n e)].
Proof.
  induction m as [|m IH]; intros k x Hk Lx Hx.
  - assert (k = n) as -> by lia. cbn [reverse_fold Nat.add].
    pose proof (badness_value n exits (repeat 0 (n * n)) (repeat_length _ _) He) as V0.
    pose proof (badness_value n exits x Lx He) as V.
    rewrite (fwp_ok stages (n + 1) _ (n * n) x _ _ stage_last (straight_badness n exits) eq_refl Lx V0 V).
    cbn [bind]. unfold idg at 1. cbn [bind].
    destruct (rvp_nodup red HR stages (n + 1) _ _ _ x _ _ (mkG (m_id Rops 1) [f_zero Rops] 0) stage_last (quiet_badness n exits)
      (straight_badness n exits) Lx V0 V) as (G & EG & SG & LG & HG).
    { rewrite rets_badness. apply shape_id. } { reflexivity. }
    { destruct (badness_pairs n exits x x Lx Lx He) as (s & _ & ND). exact ND. }
    exists G. split; [exact EG|]. split; [exact SG|]. split; [exact LG|]. intros e Le.
    destruct (HG e Le) as (ys & Ey & ->). destruct (badness_pairs n exits x e Lx Le He) as (s & Es & _).
    unfold fw_badness_fn in Es. rewrite Es in Ey. injection Ey as <-. cbn [map snd g_hom]. rewrite mulv_id1. reflexivity.
  - cbn [Nat.add reverse_fold]. assert (k < n)%nat as Hkn by lia.
    pose proof (step_value n k (repeat 0 (n * n)) (repeat_length _ _) Hkn) as V0.
    pose proof (step_value n k x Lx Hkn) as V.
    rewrite (fwp_ok stages (k + 1) _ (n * n) x _ _ (stage_step k Hkn) (straight_step n k) eq_refl Lx V0 V).
    cbn [bind]. destruct (IH (S k) (stepv n k x)) as (g & Eg & Sg & Lg & Hg); [lia|now rewrite stepv_len|now apply nonneg_step|].
    replace (k + 1 + 1)%nat with (S k + 1)%nat by lia. rewrite Eg. cbn [bind].
    destruct (step_pairs n k x x Lx Lx Hkn (Hx k k Hkn Hkn)) as (_ & _ & _ & ND & _).
    destruct (rvp_nodup red HR stages (k + 1) _ _ _ x _ _ g (stage_step k Hkn) (quiet_step n k)
      (straight_step n k) Lx V0 V) as (G & EG & SG & LG & HG); auto.
    { rewrite rets_step; auto. }
    exists G. split; [exact EG|]. split; [exact SG|]. split; [exact LG|]. intros e Le.
    destruct (HG e Le) as (ys & Ey & ->).
    destruct (step_pairs n k x e Lx Le Hkn (Hx k k Hkn Hkn)) as (ys' & Es & Lys & _ & HE).
    unfold fw_step_fn in Es. rewrite Es in Ey. injection Ey as <-.
    rewrite Hg by (now rewrite map_length). f_equal. cbn [along].
    apply along_ext; [now apply prod_lt|lia|exact HE].
Qed.
End Sweep.

(** ** Linear in the derivatives, the same for transposed ones *)
Definition sumf (f : nat -> nat -> R) (l : list (nat * nat)) : R :=
  fold_left (fun r uv => r + f (fst uv) (snd uv)) l 0.
Lemma sumf_from f l : forall r, fold_left (fun r uv => r + f (fst uv) (snd uv)) l r = r + sumf f l.
Proof.
  unfold sumf. induction l as [|a l IH]; intros r; cbn; [ring|]. rewrite (IH (r + _)), (IH (0 + _)). ring.
Qed.
Lemma sumf_cons f u v l : sumf f ((u, v) :: l) = f u v + sumf f l.
Proof. unfold sumf at 1. cbn. rewrite sumf_from. ring. Qed.
Lemma sumf_app f l l' : sumf f (l ++ l') = sumf f l + sumf f l'.
Proof. unfold sumf at 1. rewrite fold_left_app. fold (sumf f l). apply sumf_from. Qed.
Lemma sumf_col f a l2 : forall l1, sumf f (list_prod l1 (a :: l2)) = sumf f (map (fun u => (u, a)) l1) + sumf f (list_prod l1 l2).
Proof.
  induction l1 as [|u l1 IH]; [unfold sumf; cbn; ring|]. cbn [list_prod map app]. rewrite !sumf_cons, !sumf_app, IH. ring.
Qed.
Lemma sumf_swap f l1 : forall l2, sumf f (list_prod l1 l2) = sumf (fun u v => f v u) (list_prod l2 l1).
Proof.
  induction l1 as [|a l1 IH]; intros l2; cbn [list_prod].
  - induction l2; cbn; auto.
  - rewrite sumf_app, sumf_col, IH. f_equal. clear. induction l2 as [|b l2 IH]; cbn [map]; auto.
    rewrite !sumf_cons, IH. reflexivity.
Qed.
Lemma pform_sumf D E l : pform D E l = sumf (fun u v => E u v * D u v + D u v * E u v) l.
Proof. reflexivity. Qed.
Lemma sumf_ext n f g l : Forall (fun uv => (fst uv < n)%nat /\ (snd uv < n)%nat) l ->
  (forall u v, (u < n)%nat -> (v < n)%nat -> f u v = g u v) -> sumf f l = sumf g l.
Proof.
  intros HP H. induction HP as [|[u v] l [Hu Hv] HP IH]; auto. rewrite !sumf_cons, IH, H by auto. reflexivity.
Qed.
Lemma sumf_add f g l : sumf (fun u v => f u v + g u v) l = sumf f l + sumf g l.
Proof. induction l as [|[u v] l IH]; [unfold sumf; cbn; ring|]. rewrite !sumf_cons, IH. ring. Qed.

Lemma along_add n pairs m : Forall (fun uv => (fst uv < n)%nat /\ (snd uv < n)%nat) pairs ->
  forall k x E E', (k + m <= n)%nat ->
  along n pairs m k x (fun i j => E i j + E' i j) = along n pairs m k x E + along n pairs m k x E'.
Proof.
  intros HP. induction m as [|m IH]; intros k x E E' Hk; cbn [along].
  - rewrite !pform_sumf, <- sumf_add. apply (sumf_ext n); auto. intros. ring.
  - rewrite <- IH by lia. apply along_ext; [auto|lia|]. intros i j Hi Hj. unfold sel.
    destruct (Rlt_dec _ _); ring.
Qed.

Definition symmetric_at (n : nat) (x : list R) : Prop := forall i j, (i < n)%nat -> (j < n)%nat -> at_ n x i j = at_ n x j i.
Lemma symmetric_step n k x : length x = (n * n)%nat -> (k < n)%nat -> 0 <= at_ n x k k -> symmetric_at n x -> symmetric_at n (stepv n k x).
Proof.
  intros L Hk Hd H i j Hi Hj. rewrite !stepv_spec; auto.
  rewrite (H i j), (H i k), (H k j) by auto. f_equal. ring.
Qed.

Lemma along_transposed n exits m : Forall (fun u => (u < n)%nat) exits ->
  forall k x E, (k + m <= n)%nat -> length x = (n * n)%nat -> nonneg_at n x -> symmetric_at n x ->
  along n (list_prod exits exits) m k x (fun i j => E j i) = along n (list_prod exits exits) m k x E.
Proof.
  intros He. pose proof (prod_lt n exits He) as HP.
  induction m as [|m IH]; intros k x E Hk L Hx HS; cbn [along].
  - rewrite !pform_sumf, sumf_swap. apply (sumf_ext n); auto. intros u v Hu Hv. rewrite (HS v u) by auto. reflexivity.
  - rewrite <- (IH (S k));
      [|lia|now rewrite stepv_len|apply nonneg_step; auto; lia|apply symmetric_step; auto; [lia|apply Hx; lia]].
    apply along_ext; [auto|lia|]. intros i j Hi Hj. unfold sel.
    rewrite (HS j k), (HS k i), (HS j i) by (auto; lia).
    destruct (Rlt_dec (at_ n x i k + at_ n x k j) (at_ n x i j)), (Rlt_dec (at_ n x k j + at_ n x i k) (at_ n x i j)); try lra.
Qed.

(** ** The first stage *)
Lemma dot_last_seeds ids : forall x y, dot (last_seeds ids x) y = dot x (last_seeds ids y).
Proof.
  induction ids as [|i ids IH]; intros [|a x] [|b y]; cbn; auto.
  rewrite IH. destruct (existsb _ _); ring.
Qed.

Lemma nth_last_seeds ids : forall x a d, length x = length ids -> nth_error ids a = Some d ->
  (nth a (last_seeds ids x) 0 = 0 /\ exists b, (a < b)%nat /\ nth_error ids b = Some d) \/
  (nth a (last_seeds ids x) 0 = nth a x 0 /\ forall b, (a < b)%nat -> nth_error ids b <> Some d).
Proof.
  induction ids as [|i ids IH]; intros [|c x] [|a] d L Ed; try discriminate; cbn in *.
  - injection Ed as <-. destruct (existsb (Nat.eqb i) ids) eqn:Ex.
    + left. split; auto. apply existsb_exists in Ex as (j & Hj & Ej). apply Nat.eqb_eq in Ej. subst j.
      apply In_nth_error in Hj as [b Hb]. exists (S b). split; [lia|auto].
    + right. split; auto. intros [|b] Hb; [lia|]. cbn. intros Hn. apply nth_error_In in Hn.
      assert (existsb (Nat.eqb i) ids = true) as Ht by (apply existsb_exists; exists i; split; [auto|apply Nat.eqb_refl]). congruence.
  - destruct (IH x a d) as [[H (b & Hb & Eb)]|[H Hn]]; [lia|auto| |].
    + left. split; [auto|]. exists (S b). split; [lia|auto].
    + right. split; [auto|]. intros [|b] Hb; [lia|]. cbn. apply Hn. lia.
Qed.

Lemma pstreet_sym inf l i j : pstreet inf l i j = pstreet inf l j i.
Proof.
  induction l as [|[[u v] w] l IH]; cbn.
  - now rewrite (Nat.eqb_sym i j).
  - rewrite IH. rewrite (orb_comm (_ && _)), (andb_comm (j =? u)%nat), (andb_comm (j =? v)%nat). reflexivity.
Qed.
Lemma pstreets_diag inf ps (edges : list edge) i : Forall (fun e : edge => fst (fst e) <> snd (fst e)) edges ->
  pstreet inf (pstreets ps edges) i i = (0, 0).
Proof.
  intros H. unfold pstreets. rewrite <- map_rev. apply Forall_rev in H.
  induction H as [|[[u v] [l top]] es Huv H IH]; cbn in *; [now rewrite Nat.eqb_refl|].
  destruct (Nat.eqb_spec i u), (Nat.eqb_spec i v); cbn; auto; subst; congruence.
Qed.

Lemma graphv_len n inf edges params : length (graphv n inf edges params) = (n * n)%nat.
Proof. unfold graphv. now rewrite edgev_len, initv_len. Qed.

Lemma street_sym inf l i j : street inf l i j = street inf l j i.
Proof.
  induction l as [|[[u v] w] l IH]; cbn.
  - now rewrite (Nat.eqb_sym i j).
  - rewrite IH. rewrite (orb_comm (_ && _)), (andb_comm (j =? u)%nat), (andb_comm (j =? v)%nat). reflexivity.
Qed.

Theorem fw_gradient_along red est n nl inf edges exits params w :
  rayon red -> accurate est (Z.of_nat (n + 2) + 1) -> (Z.of_nat (n + 2) + 1 <= 2 ^ 32)%Z -> (2 <= n)%nat ->
  0 <= inf -> length params = nl -> Forall (street_ok n nl) edges ->
  Forall (fun e : edge => fst (fst e) <> snd (fst e)) edges -> Forall (fun u => (u < n)%nat) exits ->
  exists g w', fw_gradient Rops red est n nl inf edges exits params w = Ok (g, w') /\ shape g nl 1 /\
    forall v, length v = nl -> dot (col g 0) v =
      / 2 * along n (list_prod exits exits) n 0 (graphv n inf edges params)
              (fun i j => snd (pstreet inf (pstreets (combine params v) edges) i j)).
Proof.
  intros HR HA HN Hn Hi Lp He Hd Hex. set (x := graphv n inf edges params).
  assert (length x = (n * n)%nat) as Lx by apply graphv_len.
  assert (Forall (street_ok n (length params)) edges) as He' by now rewrite Lp.
  assert (nonneg_at n x) as Hx by (intros i j Hi' Hj; unfold x; rewrite graphv_at by auto; now apply street_nonneg).
  assert (symmetric_at n x) as HS by (intros i j Hi' Hj; unfold x; rewrite !graphv_at by auto; apply street_sym).
  destruct (sweep red HR n nl inf edges exits Hex n 0 x) as (g & Eg & Sg & Lg & Hg); auto.
  set (stages := fw_stages Rops n nl inf edges exits) in *.
  assert (nth_error stages 0 = Some (fw_graph Rops n nl inf edges)) as E0 by reflexivity.
  pose proof (graph_value n nl inf edges (repeat 0 nl) (repeat_length _ _) He) as V0.
  pose proof (graph_value n nl inf edges params Lp He) as V.
  destruct (graph_pairs n nl inf edges params params Lp Lp He Hd) as (_ & _ & _ & _ & Lr & RS & _).
  destruct (rvp_ok red HR stages 0 _ _ _ params _ _ g E0 (quiet_graph n nl inf edges) (straight_graph n nl inf edges) Lp V0 V)
    as (G & t & w1 & EG & SG & LG & HT & LD & HG); auto.
  { unfold fw_graph_body in Lr. rewrite Lr. exact Sg. }
  assert (reverse_fold (fwp Rops stages) (rvp Rops red stages) (fun _ => Ok (mkG (m_id Rops 1) [f_zero Rops] 0)) (n + 2) (0%nat, params) = Ok G) as EF.
  { replace (n + 2)%nat with (S (n + 1)) by lia. cbn [reverse_fold].
    rewrite (fwp_ok stages 0 _ nl params _ _ E0 (straight_graph n nl inf edges) eq_refl Lp V0 V). cbn [bind].
    change (0 + 1)%nat with 1%nat in *. change (0 + 1)%nat with 1%nat in Eg. fold x. rewrite Eg. cbn [bind]. exact EG. }
  pose proof (fw_gradient_fold Rops red est n nl inf edges exits params w HA HN Hn) as HF.
  fold stages in HF. rewrite EF in HF. destruct HF as (w' & HF). destruct SG as (WG & RG & CG).
  rewrite RG, CG in HF.
  exists (m_tab nl 1 (fun i j => ent Rops (g_hom G) j i)), w'. split; [exact HF|]. split; [apply shape_tab|].
  intros v Lv.
  assert (dot (col (m_tab nl 1 (fun i j => ent Rops (g_hom G) j i)) 0) v = nth 0 (mulv (g_hom G) v) 0) as ->.
  { rewrite nth_mulv. f_equal. apply nth_ext0.
    - unfold col. rewrite map_length. cbn. rewrite map_length, seq_length. symmetry.
      apply (row_len _ 1 nl); [split; auto|lia].
    - intros i Hi'. rewrite nth_col, row_ent.
      assert (i < nl)%nat by (unfold col in Hi'; rewrite map_length in Hi'; cbn in Hi'; rewrite map_length, seq_length in Hi'; auto).
      rewrite ent_tab; auto. }
  destruct (HG v Lv) as (ys & Ey & Ly & D1 & D2 & ->).
  destruct (graph_pairs n nl inf edges params v Lp Lv He Hd) as (ys' & Es & _ & HP & _ & _ & RD).
  unfold fw_graph in Es. rewrite Es in Ey. injection Ey as ->.
  fold (fw_graph_body n nl inf edges) in D1, D2, Ly, LD. set (rs := rets (fw_graph_body n nl inf edges)) in *.
  assert (mulv (seed_rows (t_deps t) (g_hom g)) (map snd ys) = mulv (g_hom g) (last_seeds (t_deps t) (map snd ys))) as ->.
  { unfold mulv, seed_rows. cbn [m_dat]. rewrite map_map. apply map_ext. intros r. apply dot_last_seeds. }
  set (e0 := map snd ys) in *. set (E0' := fun i j => snd (pstreet inf (pstreets (combine params v) edges) i j)).
  assert (length e0 = (n * n)%nat) as Le0 by (unfold e0; rewrite map_length; congruence).
  assert (forall i j, (i < n)%nat -> (j < n)%nat -> at_ n e0 i j = E0' i j) as HE.
  { intros i j Hi' Hj. unfold e0. rewrite <- pat_snd, HP; auto. }
  rewrite Hg by (rewrite last_seeds_length; congruence). cbn [nth].
  assert (forall i j, (i < n)%nat -> (j < n)%nat ->
    at_ n (last_seeds (t_deps t) e0) i j = if (j <? i)%nat then E0' i j else 0) as HL.
  { intros i j Hi' Hj. rewrite <- HE by auto.
    pose proof (nth_gat 0%nat n rs i j Lr Hi' Hj) as Ra. pose proof (nth_gat 0%nat n rs j i Lr Hj Hi') as Rb.
    pose proof (idx_lt n i j Hi' Hj) as Ha.
    destruct (nth_error (t_deps t) (i * n + j)) as [d|] eqn:Ed; [|apply nth_error_None in Ed; lia].
    destruct (nth_last_seeds (t_deps t) e0 (i * n + j) d) as [[H0 (b & Hb & Eb)]|[H0 Hno]]; [congruence|auto| |].
    - unfold at_ at 1. rewrite H0. destruct (Nat.ltb_spec j i) as [Hji|]; [|auto].
      assert (b < n * n)%nat as Hbn by (rewrite <- Lr, <- LD; apply nth_error_Some; congruence).
      assert (b = (b / n) * n + b mod n)%nat as Eb' by (rewrite (Nat.div_mod b n) at 1 by lia; lia).
      assert (b / n < n)%nat as H1 by (apply Nat.div_lt_upper_bound; lia).
      assert (b mod n < n)%nat as H2 by (apply Nat.mod_upper_bound; lia).
      pose proof (nth_gat 0%nat n rs (b / n) (b mod n) Lr H1 H2) as Rbb. rewrite <- Eb' in Rbb.
      destruct (D1 _ _ _ _ d Ra Rbb Ed Eb) as [Eab|Er]; [lia|].
      destruct (RD i j (b / n)%nat (b mod n)%nat Hi' Hj H1 H2 Er) as [[-> ->]|[[E1 E2]|Hz]].
      + lia.
      + rewrite <- E1, <- E2 in Eb'. nia.
      + rewrite pat_snd in Hz. fold e0 in Hz. auto.
    - unfold at_ at 1. rewrite H0. fold (at_ n e0 i j). destruct (Nat.ltb_spec j i) as [Hji|Hji]; [auto|].
      destruct (Nat.eq_dec i j) as [<-|Hij].
      + rewrite HE by auto. unfold E0'. rewrite pstreets_diag; auto.
      + assert (gat 0%nat n rs j i = gat 0%nat n rs i j) as Esy by (symmetry; apply (RS i j); auto).
        rewrite Esy in Rb. destruct (D2 _ _ _ Ra Rb) as [Ed2|Hz]; [|exact Hz].
        exfalso. apply (Hno (j * n + i)%nat); [nia|]. congruence. }
  pose proof (prod_lt n exits Hex) as HPL.
  rewrite (along_ext n (list_prod exits exits) n HPL 0 x _ (fun i j => if (j <? i)%nat then E0' i j else 0)) by (auto; lia).
  set (Lo := fun i j => if (j <? i)%nat then E0' i j else 0).
  assert (along n (list_prod exits exits) n 0 x E0' = along n (list_prod exits exits) n 0 x Lo + along n (list_prod exits exits) n 0 x (fun i j => Lo j i)) as ->.
  { rewrite <- along_add by (auto; lia). apply along_ext; [auto|lia|]. intros i j Hi' Hj. unfold Lo.
    destruct (Nat.ltb_spec j i), (Nat.ltb_spec i j); try lia; try ring.
    - unfold E0'. rewrite pstreet_sym. ring.
    - assert (i = j) as <- by lia. unfold E0'. rewrite pstreets_diag by auto. cbn. ring. }
  rewrite along_transposed by (auto; lia). lra.
Qed.
