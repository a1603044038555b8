(** Reasoning about function bodies written with Build.v: what a builder does when it is run on any kind
    of variables. *)
From Coq Require Import List Arith ZArith Bool Lia.
From Verif Require Import Base Float Operation Tape AContext Methods Function Build.
Import ListNotations.

Section Sem.
Context {F V St : Type} (Fo : Fops F) (fop : OpCode -> V -> option V -> M St V) (cst : F -> V) (val : V -> F).
Notation grun := (run Fo fop cst val).

(** [m], started with registers [env] in state [s], continues with a result, registers and a state that
    satisfy [Q] *)
Definition gsem {A} (m : builder F A) (env : list V) (s : St) (Q : A -> list V -> St -> Prop) : Prop :=
  exists a ext s', Q a (env ++ ext) s' /\
    forall k, grun (m k (length env)) env s = grun (k a (length (env ++ ext))) (env ++ ext) s'.

Lemma gget_ext (env ext : list V) a v : nth_error env a = Some v -> nth_error (env ++ ext) a = Some v.
Proof. intros H. rewrite nth_error_app1; auto. apply nth_error_Some. congruence. Qed.
Lemma gget_last (env : list V) v : nth_error (env ++ [v]) (length env) = Some v.
Proof. rewrite nth_error_app2, Nat.sub_diag; auto. Qed.

Lemma gsem_ret {A} (a : A) env s (Q : A -> list V -> St -> Prop) : Q a env s -> gsem (b_ret a) env s Q.
Proof. intros H. exists a, [], s. rewrite app_nil_r. split; auto. Qed.

Lemma gsem_bind {A B} (m : builder F A) (f : A -> builder F B) env s Q :
  gsem m env s (fun a env' s' => (exists ext, env' = env ++ ext) -> gsem (f a) env' s' Q) -> gsem (b_bind m f) env s Q.
Proof.
  intros (a & e1 & s1 & H1 & R1). destruct H1 as (b & e2 & s2 & H2 & R2); [eauto|].
  exists b, (e1 ++ e2), s2. rewrite !app_assoc. split; [auto|]. intros k. unfold b_bind. rewrite R1. apply R2.
Qed.

Lemma gsem_conseq {A} (m : builder F A) env s (P Q : A -> list V -> St -> Prop) :
  gsem m env s P -> (forall a ext s', P a (env ++ ext) s' -> Q a (env ++ ext) s') -> gsem m env s Q.
Proof. intros (a & e & s' & H & E) HQ. exists a, e, s'. auto. Qed.

Lemma gsem_const c env s (Q : nat -> list V -> St -> Prop) : Q (length env) (env ++ [cst c]) s -> gsem (b_const c) env s Q.
Proof.
  intros H. exists (length env), [cst c], s. split; [auto|]. intros k. unfold b_const. cbn [run].
  rewrite app_length. reflexivity.
Qed.

Lemma gsem_bin b x y vx vy r env s s' (Q : nat -> list V -> St -> Prop) :
  nth_error env x = Some vx -> nth_error env y = Some vy -> meth2 Fo fop cst b vx vy s = Ok (r, s') ->
  Q (length env) (env ++ [r]) s' -> gsem (b_bin b x y) env s Q.
Proof.
  intros Ex Ey E H. exists (length env), [r], s'. split; [auto|]. intros k. unfold b_bin.
  cbn [run]. unfold mbind, mlift, get. rewrite Ex, Ey, E, app_length. reflexivity.
Qed.

Lemma gsem_for {A B} (f : B -> A -> builder F B) (I : list A -> B -> list V -> St -> Prop) :
  forall l b env s, I [] b env s ->
  (forall done a rest b env s, l = done ++ a :: rest -> I done b env s ->
     gsem (f b a) env s (fun b' env' s' => I (done ++ [a]) b' env' s')) ->
  gsem (b_for f l b) env s (fun b' env' s' => I l b' env' s').
Proof.
  intros l b env s H0 HS.
  assert (forall rest done b env s, l = done ++ rest -> I done b env s ->
    gsem (b_for f rest b) env s (fun b' env' s' => I l b' env' s')) as G.
  { induction rest as [|a rest IH]; intros done b1 env1 s1 E H; cbn.
    - apply gsem_ret. rewrite app_nil_r in E. subst. auto.
    - apply gsem_bind. eapply gsem_conseq; [eapply HS; eauto|]. intros b2 ext s2 H2 _.
      apply (IH (done ++ [a])); [|auto]. rewrite <- app_assoc. auto. }
  eapply G; eauto. reflexivity.
Qed.

(** registers [rs] hold [vs] *)
Definition gholds (env : list V) (rs : list nat) (vs : list V) : Prop :=
  Forall2 (fun a v => nth_error env a = Some v) rs vs.
Lemma gholds_ext env ext rs vs : gholds env rs vs -> gholds (env ++ ext) rs vs.
Proof. induction 1; constructor; auto. now apply gget_ext. Qed.
Lemma gholds_get env rs vs : gholds env rs vs -> mapM (get env) rs = Ok vs.
Proof.
  induction 1 as [|a v rs vs E H IH]; cbn; auto. unfold get at 1. rewrite E. cbn. rewrite IH. reflexivity.
Qed.
Lemma gseq_holds (x : list V) : gholds x (seq 0 (length x)) x.
Proof.
  assert (forall l p, gholds (p ++ l) (seq (length p) (length l)) l) as G.
  { induction l as [|v l IH]; intros p; cbn [length seq]; [constructor|]. constructor.
    - rewrite nth_error_app2, Nat.sub_diag by lia. reflexivity.
    - specialize (IH (p ++ [v])). rewrite <- app_assoc, app_length in IH. cbn in IH.
      rewrite Nat.add_1_r in IH. exact IH. }
  apply (G x []).
Qed.

(** a body *)
Lemma gbody n m (xs ys : list V) s (P : St -> Prop) : length xs = n ->
  gsem (m (seq 0 n)) xs s (fun outs env s' => gholds env outs ys /\ P s') ->
  exists s', grun (b_body n m) xs s = Ok (ys, s') /\ P s'.
Proof.
  intros Lx (outs & ext & s' & [H HP] & E). exists s'. split; [|auto]. unfold b_body.
  rewrite <- Lx at 1. rewrite Lx in E. specialize (E (fun o _ => Ret o)). rewrite Lx, E. cbn [run]. unfold mlift.
  rewrite (gholds_get _ _ _ H). reflexivity.
Qed.
End Sem.
