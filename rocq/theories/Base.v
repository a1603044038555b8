(** Results of Rust computations, panics, and slice indexing. *)
From Coq Require Import List Arith Bool Lia.
Import ListNotations.

(** Why a Rust thread unwinds.  The model keeps the reason so that theorems can say which
    check fired. *)
Inductive panic : Type :=
| PUnwrap       (* Option::unwrap on None *)
| PIndex        (* slice / DVector / DMatrix index out of bounds *)
| PAssert       (* assert! / assert_eq! *)
| POpcode       (* "Invalid opcode in ..." operation.rs:40, operation.rs:83 *)
| PAbsReverse   (* operation.rs:325 *)
| PUnsupported  (* afloat.rs:196, afloat.rs:266 *)
| PValuesMut    (* abs_normal.rs:247 *)
| POverflow     (* integer overflow *)
| PDim          (* nalgebra dimension mismatch *)
| PFuel         (* the model's loop bound ran out: proved impossible *)
| PUser.        (* a panic of the user's own function *)

Inductive res (A : Type) : Type :=
| Ok (a : A)
| Panic (p : panic).
Arguments Ok {A} a.
Arguments Panic {A} p.

Definition bind {A B : Type} (x : res A) (f : A -> res B) : res B :=
  match x with
  | Ok a => f a
  | Panic p => Panic p
  end.

Declare Scope res_scope.
Delimit Scope res_scope with res.
Notation "x <- m ;; k" := (bind m (fun x => k))
  (at level 100, m at next level, right associativity) : res_scope.
Open Scope res_scope.

(** [Option::unwrap]. *)
Definition unwrap {A : Type} (o : option A) : res A :=
  match o with
  | Some a => Ok a
  | None => Panic PUnwrap
  end.

(** [l[i]] as an rvalue. *)
Definition get {A : Type} (l : list A) (i : nat) : res A :=
  match nth_error l i with
  | Some a => Ok a
  | None => Panic PIndex
  end.

(** The list with position [i] replaced; unchanged if out of range. *)
Fixpoint update {A : Type} (l : list A) (i : nat) (a : A) : list A :=
  match l, i with
  | [], _ => []
  | _ :: l', 0 => a :: l'
  | b :: l', S i' => b :: update l' i' a
  end.

(** [l[i] = a]. *)
Definition set {A : Type} (l : list A) (i : nat) (a : A) : res (list A) :=
  if i <? length l then Ok (update l i a) else Panic PIndex.

(** [for a in l { acc = f(acc, a) }] where the body may panic. *)
Fixpoint foldM {A B : Type} (f : B -> A -> res B) (l : list A) (acc : B) : res B :=
  match l with
  | [] => Ok acc
  | a :: l' => acc' <- f acc a ;; foldM f l' acc'
  end.

(** [l.iter().map(f).collect()] where [f] may panic. *)
Fixpoint mapM {A B : Type} (f : A -> res B) (l : list A) : res (list B) :=
  match l with
  | [] => Ok []
  | a :: l' => b <- f a ;; bs <- mapM f l' ;; Ok (b :: bs)
  end.

(** [Option::map] with a body that may panic. *)
Definition optM {A B : Type} (f : A -> res B) (o : option A) : res (option B) :=
  match o with
  | Some a => b <- f a ;; Ok (Some b)
  | None => Ok None
  end.

(** [assert!(b)]. *)
Definition assert (b : bool) : res unit := if b then Ok tt else Panic PAssert.

(** ** Lemmas *)

Lemma bind_ok {A B} (x : res A) (f : A -> res B) (b : B) :
  bind x f = Ok b <-> exists a, x = Ok a /\ f a = Ok b.
Proof.
  destruct x as [a|p]; simpl; split; intros H.
  - exists a; auto.
  - destruct H as (a' & [= ->] & H); exact H.
  - discriminate.
  - destruct H as (a' & H & _); discriminate.
Qed.

Lemma get_ok {A} (l : list A) i a : get l i = Ok a <-> nth_error l i = Some a.
Proof. unfold get; destruct (nth_error l i); split; congruence. Qed.

Lemma get_lt {A} (l : list A) i : i < length l -> exists a, get l i = Ok a.
Proof.
  intros H. apply nth_error_Some in H. unfold get.
  destruct (nth_error l i) as [a|]; [exists a; reflexivity | congruence].
Qed.

Lemma get_ok_lt {A} (l : list A) i a : get l i = Ok a -> i < length l.
Proof. intros H. apply get_ok in H. apply nth_error_Some; congruence. Qed.

Lemma get_ge {A} (l : list A) i : length l <= i -> get l i = Panic PIndex.
Proof. intros H. unfold get. apply nth_error_None in H. rewrite H. reflexivity. Qed.

Lemma update_length {A} (l : list A) i a : length (update l i a) = length l.
Proof. revert i; induction l as [|b l IH]; intros [|i]; simpl; auto. Qed.

Lemma nth_error_update_eq {A} (l : list A) i a :
  i < length l -> nth_error (update l i a) i = Some a.
Proof.
  revert i; induction l as [|b l IH]; intros [|i]; simpl; intros H; try lia; auto.
  apply IH; lia.
Qed.

Lemma nth_error_update_neq {A} (l : list A) i j a :
  i <> j -> nth_error (update l i a) j = nth_error l j.
Proof.
  revert i j; induction l as [|b l IH]; intros [|i] [|j] H; simpl; auto; try lia.
Qed.

Lemma set_ok {A} (l : list A) i a l' :
  set l i a = Ok l' <-> i < length l /\ l' = update l i a.
Proof.
  unfold set. destruct (Nat.ltb_spec i (length l)); split; intros H'.
  - inversion H'; auto.
  - destruct H' as [_ ->]; reflexivity.
  - discriminate.
  - lia.
Qed.

Lemma set_lt {A} (l : list A) i a : i < length l -> set l i a = Ok (update l i a).
Proof. intros H; apply set_ok; auto. Qed.

Lemma get_update_eq {A} (l : list A) i a : i < length l -> get (update l i a) i = Ok a.
Proof. intros H; apply get_ok, nth_error_update_eq, H. Qed.

Lemma get_update_neq {A} (l : list A) i j a : i <> j -> get (update l i a) j = get l j.
Proof. intros H; unfold get; rewrite nth_error_update_neq; auto. Qed.

Lemma get_app_l {A} (l l' : list A) i : i < length l -> get (l ++ l') i = get l i.
Proof. intros H; unfold get; rewrite nth_error_app1; auto. Qed.

Lemma get_app_last {A} (l : list A) a : get (l ++ [a]) (length l) = Ok a.
Proof. unfold get; rewrite nth_error_app2, Nat.sub_diag; auto. Qed.

Lemma update_app_l {A} (l l' : list A) i a :
  i < length l -> update (l ++ l') i a = update l i a ++ l'.
Proof.
  revert i; induction l as [|b l IH]; intros [|i] H; simpl in *; try lia; auto.
  f_equal; apply IH; lia.
Qed.

Lemma update_app_last {A} (l : list A) b a : update (l ++ [b]) (length l) a = l ++ [a].
Proof. induction l as [|c l IH]; simpl; auto. f_equal; exact IH. Qed.

Lemma list_ext {A} (l l' : list A) :
  length l = length l' -> (forall i, i < length l -> nth_error l i = nth_error l' i) -> l = l'.
Proof.
  revert l'; induction l as [|a l IH]; intros [|b l'] HL H; simpl in *; try lia; auto.
  pose proof (H 0 ltac:(lia)) as H0; simpl in H0; inversion H0; subst.
  f_equal. apply IH; [lia|]. intros i Hi. apply (H (S i)); lia.
Qed.

Lemma foldM_app {A B} (f : B -> A -> res B) l1 l2 acc :
  foldM f (l1 ++ l2) acc = (x <- foldM f l1 acc ;; foldM f l2 x).
Proof.
  revert acc; induction l1 as [|a l1 IH]; intros acc; simpl; auto.
  destruct (f acc a) as [b|p]; simpl; auto.
Qed.

Lemma mapM_ok_length {A B} (f : A -> res B) l l' : mapM f l = Ok l' -> length l' = length l.
Proof.
  revert l'; induction l as [|a l IH]; intros l'; simpl.
  - intros [= <-]; reflexivity.
  - destruct (f a) as [b|p]; simpl; [|discriminate].
    destruct (mapM f l) as [bs|p]; simpl; [|discriminate].
    intros [= <-]; simpl; f_equal; auto.
Qed.

Lemma mapM_ok_nth {A B} (f : A -> res B) l l' i a :
  mapM f l = Ok l' -> nth_error l i = Some a -> exists b, f a = Ok b /\ nth_error l' i = Some b.
Proof.
  revert l' i; induction l as [|a0 l IH]; intros l' i; simpl.
  - destruct i; discriminate.
  - destruct (f a0) as [b|p] eqn:E; simpl; [|discriminate].
    destruct (mapM f l) as [bs|p]; simpl; [|discriminate].
    intros [= <-]. destruct i as [|i]; simpl.
    + intros [= <-]. exists b; auto.
    + intros H. apply IH; auto.
Qed.

Lemma mapM_total {A B} (f : A -> res B) l :
  (forall a, In a l -> exists b, f a = Ok b) -> exists l', mapM f l = Ok l'.
Proof.
  induction l as [|a l IH]; intros H; simpl.
  - exists []; reflexivity.
  - destruct (H a (or_introl eq_refl)) as [b ->]; simpl.
    destruct IH as [l' ->]; [intros; apply H; right; auto|].
    exists (b :: l'); reflexivity.
Qed.

Lemma mapM_map {A B} (f : A -> B) l : mapM (fun a => Ok (f a)) l = Ok (map f l).
Proof. induction l as [|a l IH]; simpl; auto. rewrite IH; reflexivity. Qed.

Lemma mapM_ext {A B} (f g : A -> res B) l :
  (forall a, In a l -> f a = g a) -> mapM f l = mapM g l.
Proof.
  induction l as [|a l IH]; intros H; simpl; auto.
  rewrite (H a (or_introl eq_refl)), IH; auto. intros; apply H; right; auto.
Qed.

Lemma mapM_ok_iff {A B} (f : A -> res B) l l' :
  mapM f l = Ok l' <->
  length l' = length l /\
  forall i a, nth_error l i = Some a -> exists b, f a = Ok b /\ nth_error l' i = Some b.
Proof.
  split.
  - intros H; split; [eapply mapM_ok_length; eauto | intros; eapply mapM_ok_nth; eauto].
  - revert l'; induction l as [|a l IH]; intros [|b l'] [HL H]; simpl in *; try lia; auto.
    destruct (H 0 a eq_refl) as (b' & Hb & [= ->]). rewrite Hb; simpl.
    rewrite (IH l'); simpl; auto. split; [lia|]. intros i a' Ha. apply (H (S i)); auto.
Qed.
