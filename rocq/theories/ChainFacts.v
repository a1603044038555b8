(** Function chains: composition, indexing, dimensions. *)
From Coq Require Import List Arith ZArith Bool Lia.
From Verif Require Import Base Float Operation Tape AContext Methods Function Spec Param Instances
  FunctionFacts.
Import ListNotations.

Section ChainSpec.
Context {F : Type} (Fo : Fops F).

(** Function objects users can build: function.rs:84-101. *)
Inductive built : func F -> Prop :=
| built_simple n m p : built (Simple n m p)
| built_adv n m p : built (AdvFn n m p)
| built_new f : built f -> built (chain_new f)
| built_append fs f c : built (Chain fs) -> built f -> chain_append (Chain fs) f = Ok c -> built c.

(** Running functions one after the other. *)
Fixpoint pipe {V St : Type} (ev : func F -> list V -> M St (list V)) (fs : list (func F))
  (x : list V) : M St (list V) :=
  match fs with
  | [] => mret x
  | g :: l => y <~ ev g x ;; pipe ev l y
  end.

Definition is_chain (f : func F) : bool := match f with Chain _ => true | _ => false end.

(** Adjacent functions fit together. *)
Fixpoint linked (fs : list (func F)) : Prop :=
  match fs with
  | f :: l =>
      match l with
      | g :: _ => (exists k, fn_m f = Ok k /\ fn_n g = Ok k) /\ linked l
      | [] => True
      end
  | [] => True
  end.
End ChainSpec.

Section ChainFacts.
Context {F : Type} (Fo : Fops F).

Lemma fn_iter_chain fs : fn_iter (Chain (F := F) fs) = flat_map fn_iter fs.
Proof. induction fs; auto. Qed.

Lemma iter_leaves (f : func F) : Forall (fun g => is_chain g = false) (fn_iter f).
Proof.
  induction f as [| |fs IH] using func_ind'; cbn [is_chain]; try (repeat constructor; fail).
  rewrite fn_iter_chain. induction IH as [|g l H HF IHl]; cbn; auto.
  apply Forall_app; auto.
Qed.

Lemma mbind_assoc {St A B C} (m : M St A) (k : A -> M St B) (k' : B -> M St C) s :
  mbind (mbind m k) k' s = mbind m (fun a => mbind (k a) k') s.
Proof. unfold mbind. destruct (m s) as [[a s']|]; auto. Qed.

Lemma mbind_ext {St A B} (m m' : M St A) (k k' : A -> M St B) s :
  m s = m' s -> (forall a s', k a s' = k' a s') -> mbind m k s = mbind m' k' s.
Proof. unfold mbind. intros -> H. destruct (m' s) as [[a s']|]; auto. Qed.

Section Ev.
Context {V St : Type} (fop : OpCode -> V -> option V -> M St V) (cst : F -> V) (val : V -> F).
Local Notation ev := (feval Fo fop cst val).

Lemma pipe_app l1 l2 x s : pipe ev (l1 ++ l2) x s = (y <~ pipe ev l1 x ;; pipe ev l2 y) s.
Proof.
  revert x s. induction l1 as [|g l IH]; intros x s; cbn [pipe app].
  - reflexivity.
  - rewrite mbind_assoc. apply mbind_ext; auto.
Qed.

Lemma mbind_ret {A} (m : M St A) s : mbind m mret s = m s.
Proof. unfold mbind, mret. destruct (m s) as [[a s']|]; auto. Qed.

Theorem eval_is_pipe f : forall x s, ev f x s = pipe ev (fn_iter f) x s.
Proof.
  induction f as [n m p|n m p|fs IH] using func_ind'; intros x s;
    try (cbn [fn_iter pipe]; change (fun y : list V => mret y) with (@mret St (list V));
         symmetry; apply mbind_ret).
  rewrite fn_iter_chain. revert x s.
  induction IH as [|g l H HF IHl]; intros x s; cbn [flat_map].
  - reflexivity.
  - rewrite pipe_app. change (ev (Chain (g :: l)) x s) with ((y <~ ev g x ;; ev (Chain l) y) s).
    apply mbind_ext; auto.
Qed.
End Ev.

Lemma append_inv fs f c : chain_append (Chain (F := F) fs) f = Ok c ->
  c = Chain (fs ++ [f]) /\ exists l g k, fs = l ++ [g] /\ fn_m g = Ok k /\ fn_n f = Ok k.
Proof.
  cbn [chain_append]. destruct fs as [|g0 fs0] using rev_ind; [discriminate|].
  clear IHfs0. rewrite map_app. cbn [map]. rewrite last_last. cbn [unwrap bind].
  destruct (fn_m g0) as [m|] eqn:Em; [|discriminate]. cbn [bind].
  destruct (fn_n f) as [n|] eqn:En; [|discriminate]. cbn [bind].
  unfold assert. destruct (Nat.eqb_spec m n); [|discriminate]. cbn. intros [= <-].
  subst. split; auto. exists fs0, g0, n. auto.
Qed.

Lemma fn_m_last l (g : func F) : fn_m (Chain (l ++ [g])) = fn_m g.
Proof.
  induction l as [|a l IH]; auto. cbn [app fn_m] in *. destruct (l ++ [g]) eqn:E; auto.
  destruct l; discriminate.
Qed.

(** What building maintains. *)
Definition good_iter (f : func F) : Prop :=
  exists g0 l gl r n m, fn_iter f = g0 :: l /\ fn_iter f = r ++ [gl] /\
    fn_n f = Ok n /\ fn_n g0 = Ok n /\ fn_m f = Ok m /\ fn_m gl = Ok m /\ linked (fn_iter f).

Lemma linked_app (l1 l2 : list (func F)) a b k :
  linked (l1 ++ [a]) -> linked (b :: l2) -> fn_m a = Ok k -> fn_n b = Ok k ->
  linked ((l1 ++ [a]) ++ b :: l2).
Proof.
  intros H1 H2 Ha Hb. induction l1 as [|c l1 IH].
  - cbn [app]. split; eauto.
  - cbn [app linked] in *. destruct l1 as [|d l1]; cbn [app] in *.
    + destruct H1 as [H1 _]. split; [auto|]. split; eauto.
    + destruct H1 as [H1 H1']. split; auto.
Qed.

Theorem built_good f : built f -> good_iter f.
Proof.
  induction 1 as [n m p|n m p|f Hf IH|fs f c Hc IHc Hf IHf E].
  - exists (Simple n m p), [], (Simple n m p), [], n, m. cbn. auto 10.
  - exists (AdvFn n m p), [], (AdvFn n m p), [], n, m. cbn. auto 10.
  - destruct IH as (g0 & l & gl & r & n & m & E0 & Er & ?).
    exists g0, l, gl, r, n, m. unfold chain_new. rewrite fn_iter_chain. cbn [flat_map].
    rewrite app_nil_r. cbn. intuition.
  - apply append_inv in E as (-> & l & g & k & -> & Em & En).
    destruct IHc as (g0 & l0 & gl & r & n & m & E0 & Er & Nn & N0 & Mm & Ml & L).
    destruct IHf as (g0' & l0' & gl' & r' & n' & m' & E0' & Er' & Nn' & N0' & Mm' & Ml' & L').
    assert (fn_iter (Chain ((l ++ [g]) ++ [f])) = fn_iter (Chain (l ++ [g])) ++ fn_iter f) as EI.
    { rewrite !fn_iter_chain, !flat_map_app. cbn. rewrite !app_nil_r. auto. }
    exists g0, (l0 ++ fn_iter f), gl', (fn_iter (Chain (l ++ [g])) ++ r'), n, m'.
    rewrite EI. rewrite fn_m_last. rewrite fn_m_last in Mm.
    repeat split; auto.
    + rewrite E0. auto.
    + rewrite Er' at 1. rewrite app_assoc. auto.
    + rewrite <- Nn. destruct l; reflexivity.
    + rewrite E0', Er. rewrite Er in L. rewrite E0' in L'.
      apply linked_app with k; auto; congruence.
Qed.

Lemma linked_nth (fs : list (func F)) i f g :
  linked fs -> nth_error fs i = Some f -> nth_error fs (S i) = Some g ->
  exists k, fn_m f = Ok k /\ fn_n g = Ok k.
Proof.
  revert i. induction fs as [|a l IH]; intros i L H1 H2; [destruct i; discriminate|].
  destruct l as [|b l]; [destruct i as [|[|i]]; discriminate|].
  destruct L as [Hab L]. destruct i as [|i].
  - cbn in *. injection H1 as <-. injection H2 as <-. auto.
  - apply (IH i); auto.
Qed.

Theorem chain_append_ok (fs : list (func F)) (f : func F) m n :
  built (Chain fs) -> built f -> fn_m (Chain fs) = Ok m -> fn_n f = Ok n ->
  (m = n -> exists c, chain_append (Chain fs) f = Ok c /\ fn_iter c = fn_iter (Chain fs) ++ fn_iter f) /\
  (m <> n -> chain_append (Chain fs) f = Panic PAssert).
Proof.
  intros Hc Hf Hm Hn.
  destruct fs as [|g l _] using rev_ind; [discriminate|]. rewrite fn_m_last in Hm.
  cbn [chain_append]. rewrite map_app. cbn [map]. rewrite last_last. cbn [unwrap bind]. rewrite Hm, Hn. cbn [bind].
  unfold assert. split; intros H.
  - rewrite (proj2 (Nat.eqb_eq _ _) H). cbn. eexists; split; eauto.
    change (fn_iter (Chain ((l ++ [g]) ++ [f])) = fn_iter (Chain (l ++ [g])) ++ fn_iter f).
    rewrite !fn_iter_chain, !flat_map_app. cbn. rewrite !app_nil_r. auto.
  - rewrite (proj2 (Nat.eqb_neq _ _) H). reflexivity.
Qed.

Theorem chain_index (f : func F) i :
  match nth_error (fn_iter f) i with
  | Some g => i < chain_len f /\ chain_nth f i = Ok g
  | None => chain_len f <= i /\ chain_nth f i = Panic PUnwrap
  end.
Proof.
  unfold chain_nth, chain_len. destruct (nth_error (fn_iter f) i) eqn:E; cbn.
  - split; auto. apply nth_error_Some. congruence.
  - split; auto. apply nth_error_None; auto.
Qed.

Theorem chain_dims (f : func F) : built f ->
  exists n m, fn_n f = Ok n /\ fn_m f = Ok m /\ 0 < chain_len f /\
    (forall g, chain_nth f 0 = Ok g -> fn_n g = Ok n) /\
    (forall g, chain_nth f (chain_len f - 1) = Ok g -> fn_m g = Ok m) /\
    forall i g h, chain_nth f i = Ok g -> chain_nth f (S i) = Ok h ->
      exists k, fn_m g = Ok k /\ fn_n h = Ok k.
Proof.
  intros H. destruct (built_good f H) as (g0 & l & gl & r & n & m & E0 & Er & Nn & N0 & Mm & Ml & L).
  exists n, m. unfold chain_len, chain_nth. split; auto. split; auto.
  split; [rewrite E0; cbn; lia|]. split.
  { rewrite E0. cbn. intros g [= <-]; auto. }
  split.
  { rewrite Er. rewrite app_length. cbn. replace (length r + 1 - 1) with (length r) by lia.
    rewrite nth_error_app2, Nat.sub_diag by lia. cbn. intros g [= <-]; auto. }
  intros i g h Hg Hh.
  destruct (nth_error (fn_iter f) i) eqn:E1; [|discriminate].
  destruct (nth_error (fn_iter f) (S i)) eqn:E2; [|discriminate].
  cbn in *. injection Hg as <-. injection Hh as <-. eapply linked_nth; eauto.
Qed.

(** ** adv_fn! *)
Section Adv.
Context {V St : Type} (fop : OpCode -> V -> option V -> M St V) (cst : F -> V) (val : V -> F).

Theorem advfn_dims n m p x s :
  match feval Fo fop cst val (AdvFn n m p) x s with
  | Ok (y, _) => length x = n /\ length y = m
  | Panic _ => True
  end /\
  (length x <> n -> feval Fo fop cst val (AdvFn n m p) x s = Panic PAssert) /\
  (length x = n -> forall y s', feval Fo fop cst val (Simple n m p) x s = Ok (y, s') ->
     feval Fo fop cst val (AdvFn n m p) x s = if length y =? m then Ok (y, s') else Panic PAssert).
Proof.
  cbn [feval]. unfold mbind, mlift, assert.
  destruct (Nat.eqb_spec (length x) n) as [E|E]; cbn.
  - split; [|split; [congruence|]].
    + destruct (run Fo fop cst val p x s) as [[y s']|q]; auto.
      destruct (Nat.eqb_spec (length y) m); cbn; auto.
    + intros _ y s' ->. destruct (length y =? m); reflexivity.
  - split; auto. split; auto. congruence.
Qed.
End Adv.

Lemma advfn_reports n m (p : prog F) : fn_n (AdvFn n m p) = Ok n /\ fn_m (AdvFn n m p) = Ok m.
Proof. auto. Qed.
End ChainFacts.
