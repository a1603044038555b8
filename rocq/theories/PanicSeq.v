(** Which calls freeze a context, one thread. *)
From Coq Require Import List Arith ZArith Bool Lia.
From Verif Require Import Base Float Operation Tape AContext Param TapeFacts AContextFacts Api ApiFacts ApiFacts3.
Import ListNotations.

Section PanicSeq.
Context {Sc F : Type} (So : Fops Sc) (tof : Sc -> option F).
Implicit Types (s : api Sc F).

Theorem panic_freezes s h x k s' p c : reachable So tof s -> handle s h = Some c ->
  (k = CIndep h x \/ k = CDep h x \/ k = CTape h) -> step So tof s k = Some (s', Some p) -> a_poison s' c = true.
Proof.
  intros R Hh Hk E. pose proof (reachable_inv So tof s R) as I.
  destruct Hk as [->|[->| ->]]; cbn [step] in E; rewrite Hh in E.
  - destruct (nth_error (a_vars s) x) as [a|]; [|discriminate].
    destruct (a_poison s c) eqn:Ep; [injection E as <- _; exact Ep|].
    destruct (set_indep tof c a (a_world s)) as [[a' w']|q]; [discriminate|]. injection E as <- _. cbn. now rewrite Nat.eqb_refl.
  - destruct (nth_error (a_vars s) x) as [a|]; [|discriminate].
    destruct (a_poison s c) eqn:Ep; [injection E as <- _; exact Ep|].
    destruct (set_dep tof c a (a_world s)) as [[a' w']|q]; [discriminate|]. injection E as <- _. cbn. now rewrite Nat.eqb_refl.
  - destruct (a_poison s c) eqn:Ep; [injection E as <- _; exact Ep|].
    assert (w_ctx (a_world s) c <> None) as Hc by (apply (inv_handles _ _ I); eapply handle_owned; eauto).
    unfold ctx_tape, with_ctx in E. destruct (w_ctx (a_world s) c); [discriminate|congruence].
Qed.

Theorem op_panic_freezes s oc x y s' p : arity_ok oc y -> step So tof s (COp oc x y) = Some (s', Some p) ->
  (s' = s /\ exists j a b c1 k1 c2 k2, y = Some j /\ nth_error (a_vars s) x = Some a /\ nth_error (a_vars s) j = Some b /\
     af_ctx a = Some (c1, k1) /\ af_ctx b = Some (c2, k2) /\ c1 <> c2) \/
  (exists z c k, (nth_error (a_vars s) x = Some z \/ exists j, y = Some j /\ nth_error (a_vars s) j = Some z) /\
     af_ctx z = Some (c, k) /\ a_poison s' c = true).
Proof.
  intros Ha E. cbn [step] in E. destruct (nth_error (a_vars s) x) as [a|] eqn:Ea; [|discriminate].
  remember (match y with None => Some None
            | Some j => match nth_error (a_vars s) j with Some b => Some (Some b) | None => None end end) as ob eqn:Eb.
  destruct ob as [b|]; [|discriminate].
  assert (forall c s1, pick_cid a b = Ok (Some c) -> a_poison s1 c = true ->
    exists z c k, (Some a = Some z \/ exists j, y = Some j /\ nth_error (a_vars s) j = Some z) /\
     af_ctx z = Some (c, k) /\ a_poison s1 c = true) as HX.
  { intros c s1 Ep Hp. destruct (pick_cid_some _ _ _ Ep) as (_ & _ & k & [H|(y' & Ey & H)]).
    - exists a, c, k. auto.
    - exists y', c, k. split; [|auto]. right. destruct y as [j|]; [|congruence]. exists j. split; auto.
      destruct (nth_error (a_vars s) j); [|discriminate]. congruence. }
  match type of E with (if ?P then _ else _) = _ => destruct P eqn:EP end.
  - injection E as <- _. right. destruct (pick_cid a b) as [[c|]|] eqn:Ep; try discriminate.
    destruct (w_ctx (a_world s) c); [|discriminate]. eapply HX; eauto.
  - destruct (from_op So tof oc a b (a_world s)) as [[r w']|q] eqn:E1; [discriminate|].
    destruct (from_op_left So tof oc a b (a_world s)) as [[c w']|] eqn:EL.
    + injection E as <- _. right. apply from_op_left_spec in EL as (Ep & _). eapply HX; eauto. cbn. now rewrite Nat.eqb_refl.
    + injection E as <- _. left. split; auto. clear HX EP.
      assert (arity_ok oc b) as Hb.
      { unfold arity_ok in *. destruct y as [j|]; [destruct (nth_error (a_vars s) j); [|discriminate]|]; injection Eb as ->; exact Ha. }
      unfold from_op, from_op_left, mbind, mlift in *.
      destruct (zero_order_value_total So oc (af_v a) (option_map af_v b)) as [v Hv].
      { destruct b; cbn in *; [right; split; auto; discriminate | auto]. }
      destruct (first_order_value_total So oc (af_v a) (option_map af_v b) (af_dv a) (option_map af_dv b)) as [dv Hd].
      { destruct b; cbn in *; [right; repeat split; auto; discriminate | auto]. }
      rewrite Hv, Hd in *. destruct (pick_cid a b) as [[c|]|] eqn:Ep; [exfalso| |].
      * unfold from_cid in E1. destruct (w_ctx (a_world s) c); [|discriminate].
        destruct (ensure_id tof c a (a_world s)) as [[? ?]|]; [|discriminate].
        destruct b as [b|]; [|discriminate]. destruct (ensure_id tof c b w) as [[? ?]|]; discriminate.
      * discriminate.
      * unfold pick_cid in Ep. destruct b as [b|]; [|discriminate].
        destruct (af_ctx b) as [[c2 k2]|] eqn:Eb2; [|discriminate].
        destruct (af_ctx a) as [[c1 k1]|] eqn:Ea1; [|discriminate].
        destruct (Nat.eqb_spec c2 c1) as [->|N]; [discriminate|].
        destruct y as [j|]; [|discriminate]. destruct (nth_error (a_vars s) j) as [b'|] eqn:Ej; [|discriminate].
        injection Eb as ->. exists j, a, b', c1, k1, c2, k2. repeat (split; [auto|]). congruence.
Qed.
End PanicSeq.
