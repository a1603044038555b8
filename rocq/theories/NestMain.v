(** Derivatives of any order by nested AFloats: the induction over user functions. *)
From Coq Require Import Reals Lra List Arith ZArith Bool Lia.
From Verif Require Import Base Float Operation Tape AContext Methods Function Spec Param TapeFacts
  Instances FunctionFacts ReplayFacts ApiFacts3 Replay2 RealInst Approx DerivSpec DerivFacts
  LinearFacts DerivFacts2 Nested NestedSpec NestedFacts NestedMain Nest NestSpec NestFacts.
Import ListNotations.
Open Scope R_scope.

Section Family.
Context (k : nat).
Let K := S k.

(** A nested value and what it is the value of, as a function of the parameters. *)
Definition VK : Type := (nest R (S k) * (list R -> R))%type.
Definition m_fop (oc : OpCode) (x : VK) (y : option VK) : M unit VK :=
  fun s =>
    match d_fop (NF k) oc (fst x) (option_map fst y) tt with
    | Ok (r, _) => Ok ((r, fun e => zv oc (snd x e) (option_map (fun z => snd z e) y)), s)
    | Panic p => Panic p
    end.
Definition m_cst (c : R) : VK := (NC (S k) c, fun _ => c).
Definition m_val (x : VK) : R := nval (S k) (fst x).
Definition goodn (x : VK) : Prop := derivs (S k) (fst x) (snd x).
Definition stilln (x : VK) : Prop := still (S k) (fst x) (snd x).

Lemma m_fop_eq oc x y s :
  arity_ok oc y ->
  m_fop oc x y s = Ok ((zk (S k) oc (fst x) (option_map fst y), fun e => zv oc (snd x e) (option_map (fun z => snd z e) y)), s).
Proof.
  intros Ha. unfold m_fop. rewrite d_fop_k by (destruct y; auto). rewrite zk_S by (destruct y; auto). reflexivity.
Qed.

Lemma stilln_op oc x y :
  arity_ok oc y -> stilln x -> (forall z, y = Some z -> stilln z) ->
  still (S k) (zk (S k) oc (fst x) (option_map fst y)) (fun e => zv oc (snd x e) (option_map (fun z => snd z e) y)).
Proof.
  intros Ha (a & Ea & Ga) Hy. destruct y as [z|].
  - destruct (Hy z eq_refl) as (b & Eb & Gb). exists (zv oc a (Some b)). cbn [option_map].
    rewrite Ea, Eb. split; [apply (zk_cst (S k) oc a (Some b)); auto|]. intros e. rewrite Ga, Gb. reflexivity.
  - exists (zv oc a None). cbn [option_map].
    rewrite Ea. split; [apply (zk_cst (S k) oc a None); auto|]. intros e. rewrite Ga. reflexivity.
Qed.

Theorem nest_family f (X : list (nest R (S k))) (env : list VK) :
  regular_n k f X -> map fst env = X -> Forall goodn env ->
  forall ys, feval Rops m_fop m_cst m_val f env tt = Ok (ys, tt) -> Forall goodn ys.
Proof.
  intros HR Ex HG ys E.
  set (RVk := fun (w : Prop) (p : nest R (S k) * bool) (q : VK) =>
                fst p = fst q /\ (w -> goodn q /\ (snd p = true -> stilln q))).
  assert (H : simM true (fun P P' : Prop => P' -> P) (fun w s1 (_ : unit) => s1 = w)
    (RVs RVk) True
    (feval Rops (nk_fop k) (fun c => (NC (S k) c, true)) (fun p => nval (S k) (fst p)) f
           (map (fun a => (a, false)) X))
    (feval Rops m_fop m_cst m_val f env)).
  { apply sim_feval; auto.
    - intros a b p q L [H1 H2]. split; auto.
    - intros w oc x1 y1 x2 y2 Ha [Hx1 Hx2] Hy s1 [] ->.
      assert (option_map fst y1 = option_map fst y2) as Ey.
      { destruct y1, y2; cbn in *; try contradiction; auto. destruct Hy as [Hy _]. congruence. }
      assert (arity_ok oc y2) as Ha2.
      { destruct y1, y2; cbn in *; try contradiction; auto. }
      assert (arity_ok oc (option_map fst y2)) as Ha3 by (destruct y2; auto).
      unfold nk_fop. rewrite Hx1, Ey. rewrite d_fop_k by auto. rewrite <- zk_S by auto.
      rewrite m_fop_eq by auto.
      eexists _, tt. eexists. split; [reflexivity|].
      split; [|split; [reflexivity|]]; [tauto|].
      split; [reflexivity|].
      intros [Hw HD]. destruct (Hx2 Hw) as [Gx Sx].
      assert (forall z, y2 = Some z -> goodn z) as Gy.
      { intros z ->. destruct y1; cbn in Hy; [|contradiction]. apply Hy; auto. }
      assert (match y1 with Some y' => snd y' | None => true end = true ->
              forall z, y2 = Some z -> stilln z) as Sy.
      { intros Hc z ->. destruct y1; cbn in Hy; [|contradiction]. apply Hy; auto. }
      split.
      + unfold goodn. cbn [fst snd].
        apply (nest_ops (S k) oc (fst x2) (snd x2) y2 _ Ha2 HD Sy Gx Gy).
      + cbn. intros Hc. apply andb_prop in Hc as [Hc1 Hc2].
        apply stilln_op; auto.
    - intros w c. split; auto. intros _.
      assert (stilln (m_cst c)) by (exists c; split; auto).
      split; auto. apply still_derivs. auto.
    - left. intros w p q [H _]; unfold m_val; congruence.
    - unfold RVs. rewrite <- Ex. clear -HG. induction HG; cbn; constructor; auto.
      split; auto. intros _. split; auto. discriminate. }
  specialize (H True tt eq_refl). unfold regular_n in HR.
  destruct (feval Rops (nk_fop k) _ _ f (map (fun a => (a, false)) X) True) as [[ps P]|p] eqn:Er.
  - specialize (HR _ _ eq_refl). destruct H as (ys' & [] & w' & E' & _ & Es & HF).
    assert (ys' = ys) by congruence. subst ys' P.
    clear -HF HR. unfold RVs in HF. induction HF as [|p q l1 l2 [H1 H2] HF IH]; constructor; auto.
    apply H2; auto.
  - rewrite (H eq_refl) in E. discriminate.
Qed.

(** The family is the nested evaluation ... *)
Lemma m_nested f env :
  match feval Rops m_fop m_cst m_val f env tt with
  | Ok (ys, _) => nest_eval Rops k f (map fst env) = Ok (map fst ys)
  | Panic p => nest_eval Rops k f (map fst env) = Panic p
  end.
Proof.
  assert (H : simM true (fun _ _ => True) (fun (_ : unit) (_ _ : unit) => True)
    (RVs (fun (_ : unit) (x : VK) v => fst x = v)) tt
    (feval Rops m_fop m_cst m_val f env)
    (feval Rops (d_fop (NF k)) (ncst Rops (S k)) (nval (S k)) f (map fst env))).
  { apply sim_feval; auto.
    - intros [] oc x1 y1 x2 y2 Ha <- Hy [] [] _.
      assert (y2 = option_map fst y1) as ->.
      { destruct y1, y2; cbn in *; try contradiction; congruence. }
      unfold m_fop.
      destruct (d_fop (NF k) oc (fst x1) (option_map fst y1) tt) as [[r []]|]; auto.
      exists r, tt, tt. auto.
    - left. intros ? ? ? <-; auto.
    - unfold RVs. clear. induction env; constructor; auto. }
  specialize (H tt tt I). rewrite nest_eval_eq.
  destruct (feval Rops m_fop m_cst m_val f env tt) as [[ys []]|p].
  - destruct H as (vs & [] & [] & -> & _ & _ & HR). cbn [bind fst].
    f_equal. clear -HR. unfold RVs in HR.
    induction HR as [|a b l1 l2 H1 HR IH]; [reflexivity|]. cbn [map]. f_equal; [symmetry; exact H1|exact IH].
  - rewrite (H eq_refl). reflexivity.
Qed.

(** ... and, for all parameters, plain evaluation. *)
Lemma m_plain f env p :
  straight_f f ->
  match feval Rops m_fop m_cst m_val f env tt with
  | Ok (ys, _) => v_eval Rops f (map (fun x => snd x p) env) = Ok (map (fun x => snd x p) ys)
  | Panic q => v_eval Rops f (map (fun x => snd x p) env) = Panic q
  end.
Proof.
  intros HS.
  assert (H : simM true (fun _ _ => True) (fun (_ : unit) (_ _ : unit) => True)
    (RVs (fun (_ : unit) (x : VK) v => snd x p = v)) tt
    (feval Rops m_fop m_cst m_val f env)
    (feval Rops (v_fop Rops) (fun c => c) (fun v => v) f (map (fun x => snd x p) env))).
  { apply sim_feval; auto.
    - intros [] oc x1 y1 x2 y2 Ha <- Hy [] [] _.
      assert (y2 = option_map (fun z => snd z p) y1) as ->.
      { destruct y1, y2; cbn in *; try contradiction; congruence. }
      rewrite m_fop_eq by auto. unfold v_fop, mlift.
      rewrite zv_ok by (destruct y1; auto). eexists _, tt, tt. split; [reflexivity|]. auto.
    - unfold RVs. clear. induction env; constructor; auto. }
  specialize (H tt tt I). unfold v_eval.
  destruct (feval Rops m_fop m_cst m_val f env tt) as [[ys []]|q].
  - destruct H as (vs & [] & [] & -> & _ & _ & HR). cbn [bind fst]. f_equal. clear -HR. unfold RVs in HR.
    induction HR as [|a b l1 l2 H1 HR IH]; [reflexivity|]. cbn [map]. f_equal; [symmetry; exact H1|exact IH].
  - rewrite (H eq_refl). reflexivity.
Qed.

Lemma m_fop_val oc x y s r s' :
  arity_ok oc y -> m_fop oc x y s = Ok (r, s') ->
  zero_order_value Rops oc (m_val x) (option_map m_val y) = Ok (m_val r).
Proof.
  intros Ha. rewrite m_fop_eq by auto. intros [= <- <-]. unfold m_val.
  cbn [fst]. rewrite nval_op by (destruct y; auto). rewrite zv_ok by (destruct y; auto).
  destruct y; reflexivity.
Qed.
End Family.

(** The parametrised inputs. *)
Lemma derivs_point K : forall x, derivs K x (point K x).
Proof.
  induction K as [|k IH]; intros x; [reflexivity|]. cbn [derivs point]. split.
  - eapply derivs_ext_all; [|apply IH]. intros e. cbn. ring.
  - exists (point k (snd x)). split; [|apply IH]. apply near_all. intros e. cbn [tl hd].
    apply (rep_iff (point k (fst x) e, point k (snd x) e)). apply rep_affine.
Qed.

Lemma near_small K (X : list (nest R K)) : forall d, 0 < d ->
  near K (fun e => nrm1 (map (fun a => point K a e - nval K a) X) < d).
Proof.
  induction X as [|a X IH]; intros d Hd; cbn [map nrm1]; [apply near_all; auto|].
  eapply near_imp; [|apply near_and; [apply (IH (d / 2)); lra|]].
  2: apply (derivs_open K (fun r => Rabs (r - nval K a) < d / 2)) with (2 := derivs_point K a).
  - cbn. intros e [H1 H2]. lra.
  - intros r Hr. exists (d / 2 - Rabs (r - nval K a)). split; [lra|]. intros s Hs.
    replace (s - nval K a) with ((s - r) + (r - nval K a)) by ring.
    eapply Rle_lt_trans; [apply Rabs_triang|]. lra.
  - unfold Rminus at 1. rewrite Rplus_opp_r, Rabs_R0. lra.
Qed.

Lemma point_shift K (X : list (nest R K)) e :
  map (fun a => point K a e) X
  = vadd (map (nval K) X) (map (fun a => point K a e - nval K a) X).
Proof.
  induction X as [|a X IH]; [reflexivity|]. cbn [map]. rewrite IH. unfold vadd at 2. cbn. f_equal. ring.
Qed.

Lemma near_zero K (P : list R -> Prop) : near K P -> P (repeat 0 K).
Proof. induction K as [|k IH] in P |- *; cbn; auto. intros H. apply (near_0 k) in H. apply (IH _ H). Qed.

Lemma point_zero K : forall x, point K x (repeat 0 K) = nval K x.
Proof. induction K as [|k IH]; intros x; cbn; auto. rewrite IH. ring. Qed.

Lemma nth_error_map_ex {A B} (f : A -> B) l j y :
  nth_error (map f l) j = Some y -> exists z, nth_error l j = Some z /\ y = f z.
Proof.
  rewrite nth_error_map. destruct (nth_error l j) as [z|]; [|discriminate]. intros [= <-]. eauto.
Qed.

Theorem nest_derivatives k f (X ys : list (nest R (S k))) :
  same_branches_near f (map (nval (S k)) X) -> regular_n k f X ->
  nest_eval Rops k f X = Ok ys ->
  length ys = length (outputs f (map (nval (S k)) X)) /\
  forall j y, nth_error ys j = Some y ->
    derivs (S k) y (fun e => nth j (outputs f (map (fun a => point (S k) a e) X)) 0).
Proof.
  intros HB HR E.
  set (env := map (fun a => (a, point (S k) a)) X : list (VK k)).
  assert (map fst env = X) as Ef by (unfold env; rewrite map_map, map_id; auto).
  assert (Forall (goodn k) env) as HGe.
  { unfold env. apply Forall_forall. intros z Hz. apply in_map_iff in Hz as (a & <- & _). apply derivs_point. }
  assert (map (m_val k) env = map (nval (S k)) X) as Ev.
  { unfold env. rewrite map_map. reflexivity. }
  assert (forall e, map (fun x : VK k => snd x e) env = map (fun a => point (S k) a e) X) as Ep.
  { intros e. unfold env. rewrite map_map. reflexivity. }
  pose proof (m_nested k f env) as HN. rewrite Ef in HN.
  destruct (feval Rops (m_fop k) (m_cst k) (m_val k) f env tt) as [[zs []]|p] eqn:Ez; [|congruence].
  assert (ys = map fst zs) as -> by congruence.
  pose proof (nest_family k f X env HR Ef HGe zs Ez) as HG.
  assert (near (S k) (fun e => outputs f (map (fun a => point (S k) a e) X) = map (fun z : VK k => snd z e) zs)) as HO.
  { destruct HB as [HS|(d & Hd & HB)].
    - apply near_all. intros e. unfold outputs. rewrite eval_float_v.
      pose proof (m_plain k f env e HS) as HP. rewrite Ez, Ep in HP. rewrite HP. reflexivity.
    - eapply near_imp; [|apply (near_small (S k) X d Hd)]. cbn beta. intros e He.
      unfold outputs. rewrite eval_float_v.
      set (x := map (nval (S k)) X) in *.
      set (h := map (fun a => point (S k) a e - nval (S k) a) X) in *.
      assert (length h = length x) as Lh by (unfold h, x; rewrite !map_length; auto).
      rewrite point_shift. fold x h.
      rewrite v_eval_resolve.
      rewrite <- (agree_f_path Rops f x (vadd x h)).
      2: rewrite vadd_length; auto.
      2: apply HB; auto.
      pose proof (m_plain k (resolve_f Rops f x) env e (resolve_f_straight Rops f x)) as HP.
      rewrite (feval_resolve Rops (m_fop k) (m_cst k) (m_val k) (m_fop_val k) (fun c => nval_cst (S k) c)) in Ez.
      rewrite Ev in Ez. rewrite Ez, Ep, point_shift in HP. fold x h in HP.
      rewrite HP. reflexivity. }
  split.
  - apply near_zero in HO. rewrite map_length.
    assert (map (fun a => point (S k) a (repeat 0 (S k))) X = map (nval (S k)) X) as E0.
    { apply map_ext. intros a. apply point_zero. }
    rewrite E0 in HO. rewrite HO, map_length. reflexivity.
  - intros j y Hj. destruct (nth_error_map_ex _ _ _ _ Hj) as (z & Ej & ->).
    assert (goodn k z) as Gz.
    { rewrite Forall_forall in HG. apply HG. eapply nth_error_In; eauto. }
    eapply derivs_ext; [|apply Gz]. eapply near_imp; [|apply HO]. cbn beta. intros e ->.
    symmetry. apply nth_error_nth. apply (map_nth_error (fun z : VK k => snd z e) j zs Ej).
Qed.

(** *** One input: the derivatives up to any order *)
Lemma seed_point K x e : point K (seed K x) e = x + fold_right Rplus 0 (firstn K e).
Proof.
  revert e. induction K as [|k IH]; intros e; cbn [point seed firstn]; [cbn; ring|].
  cbn [fst snd]. rewrite IH.
  assert (forall c p, point k (NC k c) p = c) as Hc.
  { clear. induction k as [|k IH]; intros c p; [reflexivity|]. rewrite nc_S. cbn [point fst snd].
    rewrite !IH. ring. }
  rewrite Hc. destruct e as [|t e]; cbn; [destruct k; cbn; ring|ring].
Qed.
Lemma seed_val K x : nval K (seed K x) = x.
Proof. induction K; cbn; auto. Qed.

Lemma near_len K : near K (fun e => length e = K).
Proof.
  induction K as [|k IH]; cbn; auto. eapply near_imp; [|apply IH]. cbn. intros e He. exists 1.
  split; [lra|]. intros t _. cbn. lia.
Qed.

Definition total (e : list R) : R := fold_right Rplus 0 e.

Lemma near_total K d : 0 < d -> near K (fun e => Rabs (total e) < d).
Proof.
  intros Hd.
  assert (derivs K (seed K 0) (point K (seed K 0))) as HD by apply derivs_point.
  assert (near K (fun e => Rabs (point K (seed K 0) e) < d)) as H.
  { apply (derivs_open K (fun r => Rabs r < d)) with (2 := HD).
    - intros r Hr. exists (d - Rabs r). split; [lra|]. intros s Hs.
      replace s with ((s - r) + r) by ring. eapply Rle_lt_trans; [apply Rabs_triang|]. lra.
    - rewrite seed_val, Rabs_R0. auto. }
  eapply near_imp; [|apply (near_and _ _ _ H (near_len K))]. cbn. intros e [H1 H2].
  rewrite seed_point, firstn_all2, Rplus_0_l in H1 by lia. exact H1.
Qed.

(** A property that holds near 0 holds when only the first parameter varies. *)
Lemma near_first k (P : list R -> Prop) :
  near (S k) P -> exists d, 0 < d /\ forall s, Rabs s < d -> P (repeat 0 k ++ [s]).
Proof.
  revert P. induction k as [|k IH]; intros P H; [exact H|].
  apply near_0 in H. apply IH in H. exact H.
Qed.
Lemma total_first k s : total (repeat 0 k ++ [s]) = s.
Proof. unfold total. induction k; cbn; [ring|]. rewrite IHk. ring. Qed.

Lemma d_shift (F : R -> R) a l : derivable_pt_lim (fun t => F (t + a)) 0 l <-> derivable_pt_lim F a l.
Proof.
  split; intros H e He; destruct (H e He) as (d & Hd); exists d; intros h Hh Hlt;
    specialize (Hd h Hh Hlt).
  - rewrite !Rplus_0_l in Hd. rewrite (Rplus_comm a h). exact Hd.
  - rewrite !Rplus_0_l, (Rplus_comm h a). exact Hd.
Qed.

Lemma derivatives_unique k x D E :
  derivatives_at k x D -> derivatives_at k x E ->
  (exists d, 0 < d /\ forall s, Rabs (s - x) < d -> D O s = E O s) ->
  forall j, (j <= k)%nat -> D j x = E j x /\
    ((j < k)%nat -> exists d, 0 < d /\ forall s, Rabs (s - x) < d -> D j s = E j s).
Proof.
  intros [D1 D2] [E1 E2] H0.
  assert (forall d a (f g : R -> R), 0 < d -> (forall s, Rabs (s - x) < d -> f s = g s) -> Rabs (a - x) < d ->
    forall l, derivable_pt_lim f a l -> derivable_pt_lim g a l) as HX.
  { intros d a f g Hd Hs Ha l Hf. apply d_shift. apply d_shift in Hf. eapply d_ext_near; [|apply Hf].
    exists (d - Rabs (a - x)). split; [lra|]. intros t Ht. apply Hs.
    replace (t + a - x) with (t + (a - x)) by ring. eapply Rle_lt_trans; [apply Rabs_triang|]. lra. }
  assert (Rabs (x - x) = 0) as Rx by (unfold Rminus; rewrite Rplus_opp_r; apply Rabs_R0).
  induction j as [|j IH]; intros Hj.
  - split; [|auto]. destruct H0 as (d & Hd & H). apply H. rewrite Rx. auto.
  - destruct (IH ltac:(lia)) as [_ Hn]. destruct (Hn ltac:(lia)) as (d & Hd & H).
    destruct (Nat.eq_dec (S j) k) as [Ek|Ek].
    + subst k. split; [|lia].
      apply (uniqueness_limite (E j) x); [|apply E2; auto].
      eapply HX; [apply Hd|apply H|rewrite Rx; auto|apply D2; auto].
    + destruct (D1 j ltac:(lia)) as (d1 & Hd1 & HD). destruct (E1 j ltac:(lia)) as (d2 & Hd2 & HE).
      assert (exists d, 0 < d /\ forall s, Rabs (s - x) < d -> D (S j) s = E (S j) s) as Hex.
      { exists (Rmin d (Rmin d1 d2)).
        pose proof (Rmin_l d (Rmin d1 d2)). pose proof (Rmin_r d (Rmin d1 d2)).
        pose proof (Rmin_l d1 d2). pose proof (Rmin_r d1 d2).
        split; [repeat apply Rmin_pos; auto|]. intros s Hs.
        apply (uniqueness_limite (E j) s); [|apply HE; lra].
        eapply HX; [apply Hd|apply H|lra|apply HD; lra]. }
      split; auto. destruct Hex as (d3 & Hd3 & H3). apply H3. rewrite Rx. auto.
Qed.

Lemma count_le p : (count p <= length p)%nat.
Proof. unfold count. induction p as [|[] p IH]; cbn; lia. Qed.

Lemma nth_derivs K : forall (y : nest R K) (G : R -> R),
  derivs K y (fun e => G (total e)) ->
  exists D : nat -> R -> R, D O = G /\ derivatives_at K 0 D /\
    forall p, length p = K -> comp K p y = D (count p) 0.
Proof.
  induction K as [|k IH]; intros y G H.
  - exists (fun _ => G). split; auto. split; [split; intros; lia|]. intros [|] Hp; [|discriminate]. cbn in *. auto.
  - destruct H as [Hv (g' & Hg & Hd)].
    assert (derivs k (fst y) (fun e => G (total e))) as Hv'.
    { eapply derivs_ext_all; [|apply Hv]. intros e. cbn. unfold total. rewrite Rplus_0_l. reflexivity. }
    assert (near k (fun e => derivable_pt_lim G (total e) (g' e))) as Hg'.
    { eapply near_imp; [|apply Hg]. cbn. intros e He. apply d_shift. exact He. }
    assert (exists G' : R -> R,
      ((0 < k)%nat -> exists d, 0 < d /\ forall s, Rabs s < d -> derivable_pt_lim G s (G' s)) /\
      derivable_pt_lim G 0 (G' 0) /\ near k (fun e => g' e = G' (total e))) as (G' & HG1 & HG2 & HG3).
    { destruct k as [|k'].
      - exists (fun _ => g' []). split; [lia|]. cbn in *. auto.
      - exists (fun s => g' (repeat 0 k' ++ [s])).
        destruct (near_first k' _ Hg') as (d & Hd0 & H).
        assert (forall s, Rabs s < d -> derivable_pt_lim G s (g' (repeat 0 k' ++ [s]))) as H'.
        { intros s Hs. specialize (H s Hs). cbn beta in H. rewrite total_first in H. exact H. }
        split; [intros _; eauto|]. split; [apply H'; rewrite Rabs_R0; auto|].
        eapply near_imp; [|apply (near_and _ _ _ Hg' (near_total (S k') d Hd0))]. cbn beta. intros e [H1 H2].
        apply (uniqueness_limite G (total e)); auto. }
    assert (derivs k (snd y) (fun e => G' (total e))) as Hd' by (eapply derivs_ext; [apply HG3|apply Hd]).
    destruct (IH _ _ Hv') as (Dv & Dv0 & Dv1 & Dv2). destruct (IH _ _ Hd') as (Dd & Dd0 & Dd1 & Dd2).
    exists (fun j => match j with O => G | S j' => Dd j' end). split; auto.
    assert (derivatives_at (S k) 0 (fun j => match j with O => G | S j' => Dd j' end)) as HA.
    { destruct Dd1 as [A1 A2]. split.
      - intros [|j] Hj.
        + rewrite Dd0. destruct (HG1 ltac:(lia)) as (d & Hd0 & H). exists d. split; auto. intros s Hs.
          rewrite Rminus_0_r in Hs. auto.
        + apply A1. lia.
      - intros [|j] Hj.
        + injection Hj as Hj. subst k. rewrite Dd0. exact HG2.
        + injection Hj as Hj. subst k. apply A2. reflexivity. }
    split; [exact HA|].
    intros p Hp. destruct p as [|b p]; [discriminate|]. cbn in Hp. injection Hp as Hp.
    destruct b; cbn [comp tl hd].
    + rewrite Dd2 by auto. reflexivity.
    + rewrite Dv2 by auto. change (count (false :: p)) with (count p).
      assert (derivatives_at k 0 (fun j => match j with O => G | S j' => Dd j' end)) as HA'.
      { destruct HA as [A1 A2]. split; [intros j Hj; apply A1; lia|]. intros j Hj. rewrite <- Hj.
        destruct (A1 j ltac:(lia)) as (d & Hd0 & H). apply H. unfold Rminus. rewrite Rplus_opp_r, Rabs_R0. auto. }
      apply (derivatives_unique k 0 Dv _ Dv1 HA').
      * exists 1. split; [lra|]. intros. rewrite Dv0. reflexivity.
      * pose proof (count_le p). lia.
Qed.

Theorem nest_one_input k f x y :
  same_branches_near f [x] -> regular_n k f [seed (S k) x] ->
  nest_eval Rops k f [seed (S k) x] = Ok [y] ->
  exists D : nat -> R -> R,
    (forall s, D O s = nth 0 (outputs f [s]) 0) /\ derivatives_at (S k) x D /\
    forall p, length p = S k -> comp (S k) p y = D (count p) x.
Proof.
  intros HB HR E.
  assert (map (nval (S k)) [seed (S k) x] = [x]) as Ev by (cbn [map]; rewrite seed_val; reflexivity).
  destruct (nest_derivatives k f [seed (S k) x] [y]) as [_ H]; auto; [rewrite Ev; auto|].
  specialize (H 0%nat y eq_refl).
  set (G := fun s => nth 0 (outputs f [x + s]) 0).
  assert (derivs (S k) y (fun e => G (total e))) as HD.
  { eapply derivs_ext; [|apply H]. eapply near_imp; [|apply (near_len (S k))]. cbn beta. intros e He.
    unfold G. cbn [map]. rewrite seed_point, firstn_all2 by lia. reflexivity. }
  destruct (nth_derivs (S k) y G HD) as (D & D0 & [D1 D2] & D3).
  exists (fun j s => D j (s - x)). split; [|split; [split|]].
  - intros s. rewrite D0. unfold G. f_equal. f_equal. f_equal. ring.
  - intros j Hj. destruct (D1 j Hj) as (d & Hd & Hs). exists d. split; auto. intros s Hlt.
    specialize (Hs (s - x)). rewrite Rminus_0_r in Hs. specialize (Hs Hlt).
    apply d_shift in Hs. apply d_shift. eapply d_ext_near; [|apply Hs]. exists 1. split; [lra|].
    intros t _. f_equal. ring.
  - intros j Hj. specialize (D2 j Hj). replace (x - x) with 0 by ring. apply d_shift.
    eapply d_ext_near; [|apply D2]. exists 1. split; [lra|]. intros t _. f_equal. ring.
  - intros p Hp. rewrite D3 by auto. f_equal. ring.
Qed.
