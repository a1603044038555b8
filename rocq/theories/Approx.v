(** First order approximation of functions of a small parameter: eps-delta arguments. *)
From Coq Require Import Reals Lra ZArith Lia.
From Verif Require Import Base RealInst.
Open Scope R_scope.

Section Approx.
(** A set of parameters with a size. *)
Context {T : Type} (nrm : T -> R).
Hypothesis nrm_pos : forall h, 0 <= nrm h.

(** [f] holds for all small parameters. *)
Definition ev (P : T -> Prop) : Prop := exists d, 0 < d /\ forall h, nrm h < d -> P h.
(** f = o(nrm), f = O(nrm) *)
Definition lo (f : T -> R) : Prop := forall e, 0 < e -> ev (fun h => Rabs (f h) <= e * nrm h).
Definition bo (f : T -> R) : Prop := exists C, 0 <= C /\ ev (fun h => Rabs (f h) <= C * nrm h).

Lemma ev_and P Q : ev P -> ev Q -> ev (fun h => P h /\ Q h).
Proof.
  intros (d & Hd & HP) (d' & Hd' & HQ). exists (Rmin d d'). split.
  - apply Rmin_pos; auto.
  - intros h Hh. split; [apply HP|apply HQ]; eapply Rlt_le_trans; eauto;
      [apply Rmin_l|apply Rmin_r].
Qed.

Lemma ev_imp (P Q : T -> Prop) : (forall h, P h -> Q h) -> ev P -> ev Q.
Proof. intros H (d & Hd & HP). exists d. split; auto. Qed.

Lemma ev_all (P : T -> Prop) : (forall h, P h) -> ev P.
Proof. intros H. exists 1. split; [lra|auto]. Qed.

Lemma lo_ext f g : ev (fun h => f h = g h) -> lo f -> lo g.
Proof.
  intros E H e He. eapply ev_imp; [|apply (ev_and _ _ E (H e He))].
  cbn. intros h [-> Hh]; auto.
Qed.

Lemma bo_ext f g : ev (fun h => f h = g h) -> bo f -> bo g.
Proof.
  intros E (C & HC & H). exists C. split; auto. eapply ev_imp; [|apply (ev_and _ _ E H)].
  cbn. intros h [-> Hh]; auto.
Qed.

Lemma lo_bo f : lo f -> bo f.
Proof. intros H. exists 1. split; [lra|]. apply H. lra. Qed.

Lemma lo_0 : lo (fun _ => 0).
Proof.
  intros e He. apply ev_all. intros h. rewrite Rabs_R0.
  apply Rmult_le_pos; [lra|auto].
Qed.

Lemma bo_0 : bo (fun _ => 0).
Proof. apply lo_bo, lo_0. Qed.

Lemma lo_plus f g : lo f -> lo g -> lo (fun h => f h + g h).
Proof.
  intros Hf Hg e He. assert (0 < e / 2) as He' by lra.
  eapply ev_imp; [|apply (ev_and _ _ (Hf _ He') (Hg _ He'))]. cbn. intros h [A B].
  eapply Rle_trans; [apply Rabs_triang|]. replace (e * nrm h) with (e / 2 * nrm h + e / 2 * nrm h)
    by lra. lra.
Qed.

Lemma bo_plus f g : bo f -> bo g -> bo (fun h => f h + g h).
Proof.
  intros (C & HC & Hf) (D & HD & Hg). exists (C + D). split; [lra|].
  eapply ev_imp; [|apply (ev_and _ _ Hf Hg)]. cbn. intros h [A B].
  eapply Rle_trans; [apply Rabs_triang|]. lra.
Qed.

Lemma lo_scal c f : lo f -> lo (fun h => c * f h).
Proof.
  intros Hf e He. pose proof (Rabs_pos c) as Hc.
  assert (0 < e / (Rabs c + 1)) as He' by (apply Rdiv_lt_0_compat; lra).
  eapply ev_imp; [|apply (Hf _ He')]. cbn. intros h A. rewrite Rabs_mult.
  assert (Rabs c * Rabs (f h) <= (Rabs c + 1) * (e / (Rabs c + 1) * nrm h)) as B.
  { apply Rmult_le_compat; auto using Rabs_pos; lra. }
  replace ((Rabs c + 1) * (e / (Rabs c + 1) * nrm h)) with (e * nrm h) in B by (field; lra). auto.
Qed.

Lemma bo_scal c f : bo f -> bo (fun h => c * f h).
Proof.
  intros (C & HC & Hf). exists (Rabs c * C). split.
  - apply Rmult_le_pos; auto using Rabs_pos.
  - eapply ev_imp; [|apply Hf]. cbn. intros h A. rewrite Rabs_mult, Rmult_assoc.
    apply Rmult_le_compat_l; auto using Rabs_pos.
Qed.

Lemma lo_opp f : lo f -> lo (fun h => - f h).
Proof.
  intros H. eapply lo_ext; [|apply (lo_scal (-1) f H)]. apply ev_all. intros; cbn. lra.
Qed.

Lemma bo_small f : bo f -> forall e, 0 < e -> ev (fun h => Rabs (f h) < e).
Proof.
  intros (C & HC & H) e He.
  assert (ev (fun h => nrm h < e / (C + 1))) as E.
  { exists (e / (C + 1)). split; auto. apply Rdiv_lt_0_compat; lra. }
  eapply ev_imp; [|apply (ev_and _ _ H E)]. cbn. intros h [A B].
  eapply Rle_lt_trans; [apply A|].
  assert ((C + 1) * nrm h < (C + 1) * (e / (C + 1))) as G by (apply Rmult_lt_compat_l; lra).
  replace ((C + 1) * (e / (C + 1))) with e in G by (field; lra).
  specialize (nrm_pos h). lra.
Qed.

(** O * O = o *)
Lemma bo_mult_lo f g : bo f -> bo g -> lo (fun h => f h * g h).
Proof.
  intros (C & HC & Hf) Hg e He.
  assert (0 < e / (C + 1)) as He' by (apply Rdiv_lt_0_compat; lra).
  eapply ev_imp; [|apply (ev_and _ _ Hf (bo_small g Hg _ He'))]. cbn. intros h [A B].
  rewrite Rabs_mult.
  assert (Rabs (f h) * Rabs (g h) <= (C * nrm h) * (e / (C + 1))) as D.
  { apply Rmult_le_compat; auto using Rabs_pos; lra. }
  eapply Rle_trans; [apply D|].
  replace (C * nrm h * (e / (C + 1))) with ((e * nrm h) * (C / (C + 1))) by (field; lra).
  rewrite <- (Rmult_1_r (e * nrm h)) at 2. apply Rmult_le_compat_l.
  - apply Rmult_le_pos; [lra|auto].
  - apply (Rmult_le_reg_r (C + 1)); [lra|]. unfold Rdiv. rewrite Rmult_assoc, Rinv_l by lra. lra.
Qed.

(** [phi] has value about [a] and first order increment [del]. *)
Record approx (a : R) (phi del : T -> R) : Prop := {
  ap_lo : lo (fun h => phi h - a - del h);
  ap_bo : bo del
}.

Lemma approx_bo a phi del : approx a phi del -> bo (fun h => phi h - a).
Proof.
  intros [H1 H2]. eapply bo_ext; [|apply (bo_plus _ _ (lo_bo _ H1) H2)].
  apply ev_all. intros; cbn; lra.
Qed.

Lemma approx_ext a phi del phi' del' :
  ev (fun h => phi h = phi' h) -> ev (fun h => del h = del' h) ->
  approx a phi del -> approx a phi' del'.
Proof.
  intros E1 E2 [H1 H2]. split.
  - eapply lo_ext; [|apply H1]. eapply ev_imp; [|apply (ev_and _ _ E1 E2)].
    cbn. intros h [-> ->]; auto.
  - eapply bo_ext; eauto.
Qed.

Lemma approx_const a : approx a (fun _ => a) (fun _ => 0).
Proof.
  split; [|apply bo_0]. eapply lo_ext; [|apply lo_0]. apply ev_all. intros; lra.
Qed.

Lemma approx_plus a b f g df dg :
  approx a f df -> approx b g dg -> approx (a + b) (fun h => f h + g h) (fun h => df h + dg h).
Proof.
  intros [A1 A2] [B1 B2]. split; [|apply bo_plus; auto].
  eapply lo_ext; [|apply (lo_plus _ _ A1 B1)]. apply ev_all. intros; cbn; lra.
Qed.

Lemma approx_scal c a f df :
  approx a f df -> approx (c * a) (fun h => c * f h) (fun h => c * df h).
Proof.
  intros [A1 A2]. split; [|apply bo_scal; auto].
  eapply lo_ext; [|apply (lo_scal c _ A1)]. apply ev_all. intros; cbn; lra.
Qed.

Lemma approx_minus a b f g df dg :
  approx a f df -> approx b g dg -> approx (a - b) (fun h => f h - g h) (fun h => df h - dg h).
Proof.
  intros A B. pose proof (approx_plus _ _ _ _ _ _ A (approx_scal (-1) _ _ _ B)) as H.
  replace (a - b) with (a + -1 * b) by lra.
  eapply approx_ext; [| |apply H]; apply ev_all; intros; cbn; lra.
Qed.

Lemma approx_mult a b f g df dg :
  approx a f df -> approx b g dg ->
  approx (a * b) (fun h => f h * g h) (fun h => df h * b + a * dg h).
Proof.
  intros A B. split.
  - pose proof (bo_mult_lo _ _ (approx_bo _ _ _ A) (approx_bo _ _ _ B)) as H.
    pose proof (lo_scal b _ (ap_lo _ _ _ A)) as H1. pose proof (lo_scal a _ (ap_lo _ _ _ B)) as H2.
    eapply lo_ext; [|apply (lo_plus _ _ H (lo_plus _ _ H1 H2))]. apply ev_all. intros; cbn; ring.
  - pose proof (bo_scal b _ (ap_bo _ _ _ A)) as H1. pose proof (bo_scal a _ (ap_bo _ _ _ B)) as H2.
    eapply bo_ext; [|apply (bo_plus _ _ H1 H2)]. apply ev_all. intros; cbn; ring.
Qed.

Lemma approx_abs a f df :
  approx a f df ->
  approx (Rabs a) (fun h => Rabs (f h)) (fun h => Rabs (a + df h) - Rabs a).
Proof.
  intros [A1 A2]. split.
  - intros e He. eapply ev_imp; [|apply (A1 e He)]. cbn. intros h H.
    eapply Rle_trans; [|apply H].
    replace (Rabs (f h) - Rabs a - (Rabs (a + df h) - Rabs a)) with
      (Rabs (f h) - Rabs (a + df h)) by lra.
    eapply Rle_trans; [apply Rabs_triang_inv2|]. apply Req_le. f_equal. lra.
  - destruct A2 as (C & HC & H). exists C. split; auto. eapply ev_imp; [|apply H].
    cbn. intros h G. eapply Rle_trans; [apply Rabs_triang_inv2|].
    replace (a + df h - a) with (df h) by lra. auto.
Qed.

Lemma approx_comp g a l f df :
  derivable_pt_lim g a l -> approx a f df ->
  approx (g a) (fun h => g (f h)) (fun h => l * df h).
Proof.
  intros D A. split; [|apply bo_scal; apply A].
  assert (lo (fun h => g (f h) - g a - l * (f h - a))) as H.
  { destruct (approx_bo _ _ _ A) as (C & HC & B).
    intros e He. assert (0 < e / (C + 1)) as He' by (apply Rdiv_lt_0_compat; lra).
    destruct (D _ He') as [d Hd].
    eapply ev_imp; [|apply (ev_and _ _ B (bo_small _ (approx_bo _ _ _ A) d (cond_pos d)))].
    cbn. intros h [G1 G2].
    destruct (Req_dec (f h - a) 0) as [E|E].
    - replace (f h) with a by lra.
      replace (g a - g a - l * (a - a)) with 0 by lra. rewrite Rabs_R0. apply Rmult_le_pos; [lra|auto].
    - specialize (Hd (f h - a) E G2). replace (a + (f h - a)) with (f h) in Hd by lra.
      replace (g (f h) - g a - l * (f h - a)) with
        ((f h - a) * ((g (f h) - g a) / (f h - a) - l)) by (field; auto).
      rewrite Rabs_mult.
      assert (Rabs (f h - a) * Rabs ((g (f h) - g a) / (f h - a) - l)
              <= (C * nrm h) * (e / (C + 1))) as G.
      { apply Rmult_le_compat; auto using Rabs_pos. lra. }
      eapply Rle_trans; [apply G|].
      replace (C * nrm h * (e / (C + 1))) with ((e * nrm h) * (C / (C + 1))) by (field; lra).
      rewrite <- (Rmult_1_r (e * nrm h)) at 2. apply Rmult_le_compat_l.
      + apply Rmult_le_pos; [lra|auto].
      + apply (Rmult_le_reg_r (C + 1)); [lra|].
        unfold Rdiv. rewrite Rmult_assoc, Rinv_l by lra. lra. }
  eapply lo_ext; [|apply (lo_plus _ _ H (lo_scal l _ (ap_lo _ _ _ A)))].
  apply ev_all. intros; cbn; ring.
Qed.

End Approx.

(** ** Derivatives of the elementary functions *)
Lemma d_ext f g a l : (forall x, f x = g x) -> derivable_pt_lim f a l -> derivable_pt_lim g a l.
Proof.
  intros E H e He. destruct (H e He) as [d Hd]. exists d. intros h A B. rewrite <- !E. auto.
Qed.

Lemma d_inv a : a <> 0 -> derivable_pt_lim Rinv a (- / (a * a)).
Proof.
  intros Ha.
  pose proof (derivable_pt_lim_div (fun _ => 1) id a 0 1 (derivable_pt_lim_const 1 a)
                (derivable_pt_lim_id a) Ha) as H.
  cbv beta in H. match type of H with derivable_pt_lim _ _ ?l =>
    assert (l = - / (a * a)) as E by (unfold Rsqr, id; field; auto) end.
  rewrite E in H. eapply d_ext; [|apply H]. intros x. unfold div_fct, id. unfold Rdiv. ring.
Qed.

Lemma d_tan a : cos a <> 0 -> derivable_pt_lim tan a (/ (cos a * cos a)).
Proof.
  intros H.
  pose proof (derivable_pt_lim_div sin cos a (cos a) (- sin a) (derivable_pt_lim_sin a)
                (derivable_pt_lim_cos a) H) as D.
  unfold div_fct in D.
  replace ((cos a * cos a - - sin a * sin a) / Rsqr (cos a)) with (/ (cos a * cos a)) in D.
  - exact D.
  - pose proof (sin2_cos2 a) as S. unfold Rsqr in *.
    replace (cos a * cos a - - sin a * sin a) with 1 by lra. field. auto.
Qed.

Lemma d_asin a : -1 < a < 1 -> derivable_pt_lim asin a (1 / sqrt (1 - a²)).
Proof.
  intros H. rewrite <- (derive_pt_asin a H). unfold derive_pt.
  destruct (derivable_pt_asin a H) as [l Hl]. exact Hl.
Qed.

Lemma d_acos a : -1 < a < 1 -> derivable_pt_lim acos a (-1 / sqrt (1 - a²)).
Proof.
  intros H. rewrite <- (derive_pt_acos a H). unfold derive_pt.
  destruct (derivable_pt_acos a H) as [l Hl]. exact Hl.
Qed.

Lemma powerRZ_nat x n : powerRZ x (Z.of_nat n) = x ^ n.
Proof. symmetry. apply pow_powerRZ. Qed.

Lemma d_powerRZ n a :
  a <> 0 \/ (1 <= n)%Z ->
  derivable_pt_lim (fun x => powerRZ x n) a (IZR n * powerRZ a (n - 1)).
Proof.
  intros H. destruct (Z_le_gt_dec 0 n) as [Hn|Hn].
  - destruct (Z.eq_dec n 0) as [->|Hn0].
    + rewrite Rmult_0_l. apply (d_ext (fct_cte 1)); [reflexivity|]. apply derivable_pt_lim_const.
    + set (m := Z.to_nat n). assert (n = Z.of_nat m) as E by (unfold m; rewrite Z2Nat.id; lia).
      rewrite E. apply (d_ext (fun x => x ^ m)).
      * intros x. symmetry. apply powerRZ_nat.
      * replace (Z.of_nat m - 1)%Z with (Z.of_nat (pred m)) by lia.
        rewrite powerRZ_nat, <- INR_IZR_INZ. apply derivable_pt_lim_pow.
  - assert (a <> 0) as Ha by (destruct H; auto; lia).
    set (m := Z.to_nat (- n)). assert (n = (- Z.of_nat m)%Z) as E by (unfold m; rewrite Z2Nat.id; lia).
    pose proof (derivable_pt_lim_comp (fun x => x ^ m) Rinv a _ _
                  (derivable_pt_lim_pow a m) (d_inv (a ^ m) (pow_nonzero a m Ha))) as D.
    unfold comp in D.
    replace (IZR n * powerRZ a (n - 1)) with
      (- / (a ^ m * a ^ m) * (INR m * a ^ pred m)).
    + apply (d_ext (fun x => / x ^ m)); [|exact D]. intros x. rewrite E.
      rewrite powerRZ_neg'. rewrite powerRZ_nat. reflexivity.
    + rewrite E. rewrite Ropp_Ropp_IZR, <- INR_IZR_INZ.
      replace (- Z.of_nat m - 1)%Z with (- Z.of_nat (S m))%Z by lia.
      rewrite powerRZ_neg', powerRZ_nat.
      assert (m = S (pred m)) as Em by lia.
      assert (a ^ m = a * a ^ pred m) as Ep by (rewrite Em at 1; reflexivity).
      cbn [pow]. rewrite Ep.
      pose proof (pow_nonzero a (pred m) Ha). field. auto.
Qed.
