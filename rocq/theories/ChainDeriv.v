(** Derivatives of chains of functions as they are written. *)
From Coq Require Import Reals Lra List Arith ZArith Bool Lia.
From Verif Require Import Base Float Operation Tape AContext Methods Function Spec Param Instances
  FunctionFacts ReplayFacts ApiFacts3 RealInst DerivSpec DerivFacts DerivFacts2 LinearFacts Source SourceSpec SourceFacts SourceMain SourceDeriv
  Matrix MatrixFacts Jacobian JacobianFacts SamePath SourceChain.
From Coquelicot Require Import Coquelicot.
Import ListNotations.
Open Scope R_scope.

Section ChainDeriv.
Context {D : Type} (conv : D -> R).

(** All tests of all links come out at every point near [x] as they do at [x]. *)
Definition chain_decided_near (fs : list (source R D)) (x : list R) : Prop :=
  exists ds r, 0 < r /\ forall h, length h = length x -> nrm1 h < r -> exists z, plain_chain Rops conv fs (vadd x h) = Some (z, ds).
(** The results on plain numbers *)
Definition chain_results (fs : list (source R D)) (x : list R) : list R :=
  match plain_chain Rops conv fs x with Some (z, _) => z | None => [] end.

(** All operations the functions perform are inside their domains. *)
Definition chain_in_domains (fs : list (source R D)) (x : list R) : Prop :=
  forall ys P, x_chain Rops conv r_fop (fun c => (c, true)) fst fs (map (fun a => (a, false)) x) True = Ok (ys, P) -> P.

Lemma chain_regular fs x : chain_in_domains fs x -> regular (Chain (links conv (length x) fs)) x.
Proof.
  intros H ys P E. apply (H ys). apply chain_feval. now rewrite map_length.
Qed.

Lemma chain_outputs fs n x : length x = n -> outputs (Chain (links conv n fs)) x = chain_results fs x.
Proof.
  intros <-. unfold outputs, chain_results. pose proof (chain_v_eval Rops conv fs x) as V. rewrite eval_float_v.
  destruct (plain_chain Rops conv fs x) as [[z ds]|]; [now rewrite V|destruct V as [p ->]; reflexivity].
Qed.

Lemma chain_alike fs x : chain_decided_near fs x -> alike_near (Chain (links conv (length x) fs)) x.
Proof.
  intros (ds & r & Hr & H). exists r. split; auto. intros h L N.
  destruct (H (repeat 0 (length x))) as (z0 & P0); [apply repeat_length| |].
  { replace (nrm1 (repeat 0 (length x))) with 0; auto. generalize (length x). intros n. induction n; cbn; [auto|]. rewrite Rabs_R0. lra. }
  assert (vadd x (repeat 0 (length x)) = x) as E0.
  { clear. unfold vadd. induction x as [|a x IH]; cbn; auto. rewrite IH, Rplus_0_r. auto. }
  rewrite E0 in P0. destruct (H h L N) as (z & P).
  destruct (proj2 (chain_records Rops conv fs x world0)) as (t & w' & T); [eauto|].
  pose proof (SourceDeriv.vadd_len x h L) as Lv. eapply path_alike; [exact T|auto|]. right. eapply chain_path; eauto.
Qed.

Theorem chain_derivative fs x w t w' :
  fn_tape Rops (Chain (links conv (length x) fs)) x w = Ok (t, w') -> chain_decided_near fs x ->
  chain_in_domains fs x -> no_abs t ->
  forall dx, length dx = length x ->
  exists dy, tape_forward Rops t dx = Ok dy /\ length dy = length (chain_results fs x) /\
    forall k, (k < length dy)%nat -> derivable_pt_lim (fun s => nth k (chain_results fs (vadd x (vscal s dx))) 0) 0 (nth k dy 0).
Proof.
  intros T DN RG NA dx L. destruct (alike_derivative _ x w t w' T (chain_regular _ _ RG) (chain_alike fs x DN) NA dx L) as (dy & Fw & Ld & K).
  rewrite (chain_outputs fs (length x) x eq_refl) in Ld. exists dy. split; auto. split; auto. intros k Hk. specialize (K k Hk).
  intros e He. destruct (K e He) as [dl Hd]. exists dl. intros h H1 H2. specialize (Hd h H1 H2).
  rewrite !(chain_outputs fs (length x)) in Hd by (rewrite SourceDeriv.vadd_len; [auto|now rewrite vscal_length]). exact Hd.
Qed.

Lemma chain_m fs : forall n x z ds, length x = n -> fs <> [] -> plain_chain Rops conv fs x = Some (z, ds) ->
  fn_m (Chain (links conv n fs)) = Ok (length z).
Proof.
  induction fs as [|f fs IH]; intros n x z ds L NE P; [congruence|]. cbn [plain_chain] in P.
  destruct (plain Rops conv f x) as [[y d]|] eqn:E; [|discriminate]. destruct (plain_chain Rops conv fs y) as [[u us]|] eqn:Q; [|discriminate].
  injection P as <- <-. pose proof (plain_length _ _ _ _ _ _ E) as Ly. destruct fs as [|g fs].
  - cbn in Q. injection Q as <- _. cbn. congruence.
  - specialize (IH (length (snd f)) y u us Ly ltac:(congruence) Q). cbn [links] in *. exact IH.
Qed.

Theorem chain_jacobians red1 red2 fs x w t w' :
  rayon red1 -> rayon red2 -> fs <> [] ->
  fn_tape Rops (Chain (links conv (length x) fs)) x w = Ok (t, w') -> chain_decided_near fs x ->
  chain_in_domains fs x -> no_abs t ->
  exists J, jacobian_forward Rops red1 (Chain (links conv (length x) fs)) x w = Ok J /\
    (NoDup (t_deps t) -> jacobian_reverse Rops red2 t = Ok J) /\
    m_rows J = length (chain_results fs x) /\ m_cols J = length x /\
    forall i j, (i < length (chain_results fs x))%nat -> (j < length x)%nat ->
      derivable_pt_lim (fun s => nth i (chain_results fs (update x j (nth j x 0 + s))) 0) 0 (ent Rops J i j).
Proof.
  intros H1 H2 NE T DN RG NA. destruct (proj1 (chain_records Rops conv fs x w)) as (z & ds & P); [eauto|].
  assert (chain_results fs x = z) as CR by (unfold chain_results; now rewrite P). rewrite CR.
  pose proof (chain_m fs (length x) x z ds eq_refl NE P) as M.
  assert (fn_n (Chain (links conv (length x) fs)) = Ok (length x)) as N by (destruct fs; [congruence|reflexivity]).
  assert (num_deps t = length z) as ND.
  { destruct (fn_tape_fresh Rops _ _ _ _ _ T) as (_ & (y0 & V & _ & E) & _). pose proof (chain_v_eval Rops conv fs x) as W. rewrite P in W. rewrite W in V. injection V as <-. exact E. }
  destruct (alike_jacobians red1 red2 _ x w t w' _ _ H1 H2 N M eq_refl T ND (chain_regular _ _ RG) (chain_alike fs x DN) NA) as (J & A & B & C & E & K).
  exists J. repeat split; auto. intros i j Hi Hj. specialize (K i j Hi Hj). intros e He. destruct (K e He) as [dl Hd]. exists dl.
  intros h G1 G2. specialize (Hd h G1 G2). rewrite !(chain_outputs fs (length x)) in Hd by apply update_length. exact Hd.
Qed.
End ChainDeriv.
