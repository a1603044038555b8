(** A program that keeps everything to itself does, micro-instruction by micro-instruction, what
    Api.v says it does alone, up to the names of its contexts. *)
From Coq Require Import List Arith ZArith Bool Lia Permutation.
From Verif Require Import Base Float Operation Tape TapeFacts AContext AContextFacts Spec Param Api ApiFacts Ffi Concurrent
  ConcSpec ConcInv Client IsoFacts IsoOthers IsoSelf.
Import ListNotations.

Section Seq.
Context {S F : Type} (So : Fops S) (tof : S -> option F) (me : nat).
Notation code := (code S F). Notation view := (@view F). Notation lwp := (@lwp S F me).

Definition dom (w : world F) (c : nat) : Prop := 1 <= c < w_next w.

(** A variable under the renaming [rho] of context ids. *)
Definition ren (rho : nat -> nat) (x : AF S) : AF S :=
  mkAF (af_v x) (af_dv x) (match af_ctx x with Some (c, v) => Some (rho c, v) | None => None end).

(** The registry and the contexts: [rho c] is the id, [alpha c] the address of context [c]. *)
Record wsim (rho alpha : nat -> nat) (V : view) (w : world F) (po : nat -> bool) : Prop := {
  ws_one : 1 <= w_next w;
  ws_id : forall c, dom w c -> v_id V (rho c) = true;
  ws_rho : forall c d, dom w c -> dom w d -> rho c = rho d -> c = d;
  ws_alpha : forall c d, dom w c -> dom w d -> alpha c = alpha d -> c = d;
  ws_arc : forall c, dom w c -> exists r, v_arc V (alpha c) = Some r /\ a_cid r = rho c /\ a_lock r = None /\
             a_poison r = po c /\ (forall j, w_ctx w c = Some j -> a_inner r = j);
  ws_map : forall c, dom w c -> v_map V (rho c) = match w_ctx w c with Some _ => Some (alpha c) | None => None end;
  ws_dom : forall c, w_ctx w c <> None -> dom w c;
  ws_po : forall c, w_next w <= c -> po c = false
}.

Lemma wsim_refs rho alpha V w po l : wsim rho alpha V w po -> wsim rho alpha (set_vrefs V l) w po.
Proof. intros []. constructor; auto. Qed.

Definition poke (po : nat -> bool) (c k : nat) : bool := (k =? c) || po k.

Lemma wsim_put rho alpha V V' w po po' c j r : wsim rho alpha V w po -> dom w c ->
  v_id V' = v_id V -> v_map V' = v_map V -> (forall b, b <> alpha c -> v_arc V' b = v_arc V b) ->
  v_arc V' (alpha c) = Some r -> a_cid r = rho c -> a_lock r = None -> a_poison r = po' c -> a_inner r = j ->
  (forall k, k <> c -> po' k = po k) -> w_ctx w c <> None -> wsim rho alpha V' (upd_ctx w c (Some j)) po'.
Proof.
  intros [W1 W2 W3 W4 W5 W6 W7 W8] D E1 E2 E3 E4 R1 R2 R3 R4 HP HC.
  constructor; unfold dom in *; cbn; auto.
  - intros d Hd. rewrite E1. auto.
  - intros d Hd. destruct (Nat.eq_dec d c) as [->|Hne].
    + exists r. rewrite Nat.eqb_refl. intuition congruence.
    + rewrite E3; [|intros H; apply Hne; apply W4; auto]. destruct (W5 d Hd) as (r' & ?).
      apply Nat.eqb_neq in Hne. rewrite Hne. exists r'. rewrite HP by (apply Nat.eqb_neq; auto). auto.
  - intros d Hd. rewrite E2, W6 by auto. destruct (Nat.eqb_spec d c) as [->|Hne]; auto.
    destruct (w_ctx w c); congruence.
  - intros d. destruct (Nat.eqb_spec d c) as [->|Hne]; auto.
  - intros d Hd. rewrite HP; auto. lia.
Qed.

Lemma upd_ctx_same (w : world F) c i : w_ctx w c = Some i -> forall k, w_ctx (upd_ctx w c (Some i)) k = w_ctx w k.
Proof. intros H k. cbn. destruct (Nat.eqb_spec k c) as [->|]; auto. Qed.

Lemma wsim_ext rho alpha V w w' po : wsim rho alpha V w po -> w_next w' = w_next w ->
  (forall k, w_ctx w' k = w_ctx w k) -> wsim rho alpha V w' po.
Proof.
  intros [W1 W2 W3 W4 W5 W6 W7 W8] E1 E2. constructor; unfold dom in *; rewrite ?E1; auto.
  - intros c Hc. destruct (W5 c Hc) as (r & H). exists r. rewrite E2. auto.
  - intros c Hc. rewrite E2. auto.
  - intros c. rewrite E2. auto.
Qed.

Lemma wsim_crit {B} rho alpha Q V w po c j (body : nat -> inner F -> res (B * inner F)) (k : res B -> code) :
  wsim rho alpha V w po -> w_ctx w c = Some j ->
  (if po c then forall V', v_refs V' = v_refs V -> wsim rho alpha V' w po -> lwp Q V' (k (Panic PUnwrap))
   else match body (rho c) j with
        | Ok (b, j') => forall V', v_refs V' = v_refs V -> wsim rho alpha V' (upd_ctx w c (Some j')) po -> lwp Q V' (k (Ok b))
        | Panic p => forall V', v_refs V' = v_refs V -> wsim rho alpha V' w (poke po c) -> lwp Q V' (k (Panic p))
        end) ->
  lwp Q V (crit (alpha c) body k).
Proof.
  intros W Hc H. pose proof W as [W1 W2 W3 W4 W5 W6 W7 W8].
  assert (dom w c) as D by (apply W7; congruence).
  destruct (W5 c D) as (r & R1 & R2 & R3 & R4 & R5). specialize (R5 j Hc).
  eapply lwp_crit; eauto. intros V' E1 E2 E3 E4. rewrite R4, R2, R5.
  destruct (po c) eqn:Ep.
  - intros Ha. apply H; auto. eapply wsim_ext; [eapply (wsim_put rho alpha V V' w po po c j r); eauto|..]; try congruence.
    + reflexivity.
    + intros k0. symmetry. apply upd_ctx_same; auto.
  - destruct (body (rho c) j) as [[b j']|p]; intros Ha; apply H; auto.
    + eapply (wsim_put rho alpha V V' w po po c j' _); eauto; cbn; congruence.
    + eapply wsim_ext; [eapply (wsim_put rho alpha V V' w po (poke po c) c j); eauto|..]; cbn; try congruence.
      * unfold poke. rewrite Nat.eqb_refl. auto.
      * intros k0 Hk. unfold poke. apply Nat.eqb_neq in Hk. rewrite Hk. auto.
      * intros k0. symmetry. apply (upd_ctx_same w c j Hc).
Qed.

(** The variable's context id has been given out. *)
Definition in_dom (w : world F) (x : AF S) : Prop := forall c v, af_ctx x = Some (c, v) -> dom w c.

Lemma ren_v rho x : af_v (ren rho x) = af_v x. Proof. auto. Qed.
Lemma ren_dv rho x : af_dv (ren rho x) = af_dv x. Proof. auto. Qed.
Lemma ren_ctx rho x : af_ctx (ren rho x) = match af_ctx x with Some (c, v) => Some (rho c, v) | None => None end.
Proof. auto. Qed.
Lemma map_ren_v rho (y : option (AF S)) : option_map af_v (option_map (ren rho) y) = option_map af_v y.
Proof. destruct y; auto. Qed.
Lemma map_ren_dv rho (y : option (AF S)) : option_map af_dv (option_map (ren rho) y) = option_map af_dv y.
Proof. destruct y; auto. Qed.

Lemma pick_ren rho alpha V w po x y : wsim rho alpha V w po -> in_dom w x -> (forall y', y = Some y' -> in_dom w y') ->
  pick_cid (ren rho x) (option_map (ren rho) y) =
  match pick_cid x y with Ok (Some c) => Ok (Some (rho c)) | Ok None => Ok None | Panic p => Panic p end.
Proof.
  intros W Dx Dy. unfold pick_cid. rewrite ren_ctx. destruct y as [y|]; cbn [option_map].
  - rewrite ren_ctx. unfold in_dom in *. specialize (Dy y eq_refl).
    destruct (af_ctx y) as [[c2 v2]|] eqn:E2, (af_ctx x) as [[c1 v1]|] eqn:E1; auto.
    assert ((rho c2 =? rho c1) = (c2 =? c1)) as ->.
    { destruct (Nat.eqb_spec c2 c1) as [->|Hne]; [apply Nat.eqb_refl|]. apply Nat.eqb_neq. intros H. apply Hne.
      eapply ws_rho; eauto. }
    destruct (c2 =? c1); auto.
  - destruct (af_ctx x) as [[c1 v1]|]; auto.
Qed.

Lemma lwp_ensure rho alpha Q V w po c j x (k : res nat -> code) :
  wsim rho alpha V w po -> w_ctx w c = Some j ->
  (af_ctx x = None -> po c = true -> forall V', v_refs V' = v_refs V -> wsim rho alpha V' w po -> lwp Q V' (k (Panic PUnwrap))) ->
  (po c = false \/ af_ctx x <> None ->
   match ensure_id tof c x w with
   | Ok (n, w') => forall V', v_refs V' = v_refs V -> wsim rho alpha V' w' po -> lwp Q V' (k (Ok n))
   | Panic p => forall V', v_refs V' = v_refs V -> wsim rho alpha V' w (poke po c) -> lwp Q V' (k (Panic p))
   end) ->
  lwp Q V (c_ensure tof (alpha c) (ren rho x) k).
Proof.
  intros W Hc HP HN. unfold c_ensure. rewrite ren_ctx. unfold ensure_id in HN.
  destruct (af_ctx x) as [[c1 v1]|] eqn:Ex.
  - apply HN; auto. right; discriminate.
  - apply (wsim_crit rho alpha Q V w po c j); auto. destruct (po c) eqn:Ep; auto.
    specialize (HN (or_introl eq_refl)). unfold record, with_ctx in HN. rewrite Hc in HN. unfold body_record.
    rewrite ren_v. destruct (tof (af_v x)) as [fv|]; cbn in *; auto.
Qed.

Lemma has_remove1 a l : has a l = true -> Permutation l (a :: remove1 a l).
Proof.
  intros H. apply has_in in H. induction l as [|b l IH]; cbn; [contradiction|].
  destruct (Nat.eqb_spec a b) as [->|Hne]; [reflexivity|]. destruct H as [H|H]; [congruence|].
  rewrite perm_swap. constructor. auto.
Qed.

Lemma lwp_drop_extra rho alpha Q V w po c refs k : wsim rho alpha V w po -> dom w c -> v_refs V = alpha c :: refs ->
  has (alpha c) refs = true -> lwp Q (set_vrefs V refs) k -> lwp Q V (c_drop (alpha c) k).
Proof.
  intros W D Hr Hh HK. unfold c_drop. cbn [IsoSelf.lwp]. split.
  - destruct (ws_arc _ _ _ _ _ W c D) as (r & -> & _). discriminate.
  - rewrite Hr. assert (remove1 (alpha c) (alpha c :: refs) = refs) as ->
      by (cbn; rewrite Nat.eqb_refl; auto).
    rewrite Hh. cbn. auto.
Qed.

Lemma lwp_from_op rho alpha (Q : view -> ret S F -> Prop) V w po oc x y :
  wsim rho alpha V w po -> in_dom w x -> (forall y', y = Some y' -> in_dom w y') -> arity_ok oc y ->
  (forall c, w_ctx w c <> None -> has (alpha c) (v_refs V) = true) ->
  (if match pick_cid x y with
      | Ok (Some c) => match w_ctx w c with Some _ => po c | None => false end
      | _ => false
      end
   then forall V', v_refs V' = v_refs V -> wsim rho alpha V' w po -> Q V' (RPanic PUnwrap)
   else match from_op So tof oc x y w with
        | Ok (r, w') => forall V', v_refs V' = v_refs V -> wsim rho alpha V' w' po -> Q V' (RVar (ren rho r))
        | Panic p =>
            match from_op_left So tof oc x y w with
            | None => forall V', v_refs V' = v_refs V -> wsim rho alpha V' w po -> Q V' (RPanic p)
            | Some (c, w') => forall V', v_refs V' = v_refs V -> wsim rho alpha V' w' (poke po c) -> Q V' (RPanic p)
            end
        end) ->
  lwp Q V (c_from_op So tof oc (ren rho x) (option_map (ren rho) y)).
Proof.
  intros W Dx Dy Ha Hrefs H. unfold c_from_op. rewrite map_ren_v, map_ren_dv, ren_v, ren_dv.
  unfold from_op, from_op_left, mbind, mlift in H.
  destruct (zero_order_value_total So oc (af_v x) (option_map af_v y)) as [v Ev].
  { destruct y; cbn in *; [right; split; auto; discriminate | auto]. }
  destruct (first_order_value_total So oc (af_v x) (option_map af_v y) (af_dv x)
              (option_map af_dv y)) as [dv Edv].
  { destruct y; cbn in *; [right; repeat split; auto; discriminate | auto]. }
  rewrite Ev, Edv in *. rewrite (pick_ren rho alpha V w po x y W Dx Dy).
  destruct (pick_cid x y) as [[c|]|p] eqn:Ep; cbn in H |- *.
  2:{ apply (H V eq_refl W). }
  2:{ apply (H V eq_refl W). }
  assert (dom w c) as D.
  { unfold pick_cid in Ep. unfold in_dom in *. destruct y as [y|].
    - specialize (Dy y eq_refl). destruct (af_ctx y) as [[c2 v2]|] eqn:E2, (af_ctx x) as [[c1 v1]|] eqn:E1; try discriminate.
      + destruct (Nat.eqb_spec c2 c1); cbn in Ep; [|discriminate]. injection Ep as <-. eauto.
      + injection Ep as <-. eauto.
      + injection Ep as <-. eauto.
    - destruct (af_ctx x) as [[c1 v1]|] eqn:E1; try discriminate. injection Ep as <-. eauto. }
  destruct (w_ctx w c) as [j|] eqn:Ec.
  2:{ split; [apply (ws_id _ _ _ _ _ W); auto|]. rewrite (ws_map _ _ _ _ _ W c D), Ec. cbn.
      apply (H V eq_refl W). }
  split; [apply (ws_id _ _ _ _ _ W); auto|]. rewrite (ws_map _ _ _ _ _ W c D), Ec. cbn.
  assert (v_arc V (alpha c) <> None) as Hnn
    by (destruct (ws_arc _ _ _ _ _ W c D) as (r & -> & _); discriminate).
  split; [exact Hnn|].
  assert (has (alpha c) (v_refs V) = true) as Hh by (apply Hrefs; congruence).
  rewrite Hh. cbn.
  set (V1 := set_vrefs V (alpha c :: v_refs V)).
  assert (wsim rho alpha V1 w po) as W1 by (apply wsim_refs; auto).
  assert (v_refs V1 = alpha c :: v_refs V) as Hv1 by reflexivity. clearbody V1.
  assert (forall V' w' po' r, v_refs V' = v_refs V1 -> dom w' c -> wsim rho alpha V' w' po' ->
            (forall V'', v_refs V'' = v_refs V -> wsim rho alpha V'' w' po' -> Q V'' r) ->
            lwp Q V' (c_drop (alpha c) (Ret r))) as HD.
  { intros V' w' po' r Hr D' W' HQ. eapply (lwp_drop_extra rho alpha Q V' w' po' c (v_refs V)); eauto; [congruence|].
    cbn. apply HQ; [reflexivity|]. apply wsim_refs. auto. }
  destruct (po c) eqn:Epo.
  - (* the context is poisoned *)
    assert (forall V' i1 i2, v_refs V' = v_refs V1 -> wsim rho alpha V' w po ->
      lwp Q V' (crit (alpha c) (body_record tof oc v (Some i1) i2) (fun r =>
                    match r with
                    | Panic p => c_drop (alpha c) (Ret (RPanic p))
                    | Ok vid => c_drop (alpha c) (Ret (RVar (mkAF v dv (Some (rho c, vid)))))
                    end))) as Hlast.
    { intros V' i1 i2 Hr W'. apply (wsim_crit rho alpha Q V' w po c j); auto. rewrite Epo.
      intros V2 H2 W2. eapply HD; [congruence|exact D|exact W2|]. auto. }
    apply (lwp_ensure rho alpha Q V1 w po c j x); auto.
    { intros _ _ V' Hr W'. eapply HD; [congruence|exact D|exact W'|]. auto. }
    intros [?|Hx]; [congruence|]. unfold ensure_id. destruct (af_ctx x) as [[c1 v1]|]; [|congruence].
    cbn. intros V' Hr W'. destruct y as [y|]; cbn [option_map].
    + apply (lwp_ensure rho alpha Q V' w po c j y); auto.
      { intros _ _ V2 Hr2 W2. eapply HD; [congruence|exact D|exact W2|]. auto. }
      intros [?|Hy]; [congruence|]. unfold ensure_id. destruct (af_ctx y) as [[c2 v2]|]; [|congruence].
      cbn. intros V2 Hr2 W2. apply Hlast; congruence || auto.
    + apply Hlast; auto.
  - apply (lwp_ensure rho alpha Q V1 w po c j x); auto; [intros _ ?; congruence|]. intros _.
    destruct (ensure_id tof c x w) as [[i1 w1]|p] eqn:E1.
    2:{ intros V' Hr W'. eapply HD; [congruence|exact D|exact W'|]. auto. }
    destruct (ensure_id_spec _ _ _ _ _ _ _ Ec E1) as (j1 & O1 & C1).
    assert (w_ctx w1 c = Some j1) as Ec1 by apply C1.
    intros V' Hr W'. assert (dom w1 c) as D1 by (apply (ws_dom _ _ _ _ _ W'); congruence).
    destruct y as [y|]; cbn [option_map].
    + apply (lwp_ensure rho alpha Q V' w1 po c j1 y); auto; [intros _ ?; congruence|]. intros _.
      destruct (ensure_id tof c y w1) as [[i2 w2]|p] eqn:E2.
      2:{ intros V2 Hr2 W2. eapply HD; [congruence|exact D1|exact W2|]. auto. }
      destruct (ensure_id_spec _ _ _ _ _ _ _ Ec1 E2) as (j2 & O2 & C2).
      assert (w_ctx w2 c = Some j2) as Ec2 by apply C2.
      intros V2 Hr2 W2. assert (dom w2 c) as D2 by (apply (ws_dom _ _ _ _ _ W2); congruence).
      apply (wsim_crit rho alpha Q V2 w2 po c j2); auto. rewrite Epo.
      unfold mret, record, with_ctx in H. rewrite Ec2 in H. unfold body_record.
      destruct (tof v) as [fv|]; cbn in H |- *.
      * intros V3 Hr3 W3. eapply HD; [congruence| |exact W3|].
        -- exact D2.
        -- intros V'' HV WV. apply (H V'' HV WV).
      * intros V3 Hr3 W3. eapply HD; [congruence| |exact W3|]; auto.
    + apply (wsim_crit rho alpha Q V' w1 po c j1); auto. rewrite Epo.
      unfold mret, record, with_ctx in H. rewrite Ec1 in H. unfold body_record.
      destruct (tof v) as [fv|]; cbn in H |- *.
      * intros V3 Hr3 W3. eapply HD; [congruence| |exact W3|].
        -- exact D1.
        -- intros V'' HV WV. apply (H V'' HV WV).
      * intros V3 Hr3 W3. eapply HD; [congruence| |exact W3|]; auto.
Qed.

End Seq.
