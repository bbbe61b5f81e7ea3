(** Common vocabulary of the models: [None] is undefined behaviour (out-of-range access,
    failed assert, null dereference, division by zero where stated). *)
From Coq Require Import List Arith Lia.
Import ListNotations.

Definition bind {A B} (m : option A) (f : A -> option B) : option B :=
  match m with Some a => f a | None => None end.
Notation "x <- m ;; k" := (bind m (fun x => k)) (at level 61, m at next level, right associativity).

(** checked vector access v[i] and write v[i] = x *)
Definition get {A} (v : list A) (i : nat) : option A := nth_error v i.
Fixpoint set {A} (v : list A) (i : nat) (x : A) : option (list A) :=
  match v, i with
  | [], _ => None
  | _ :: v', O => Some (x :: v')
  | a :: v', S j => r <- set v' j x ;; Some (a :: r)
  end.

(** for (int i = 0; i < n; i++) body(i), stopping at undefined behaviour *)
Fixpoint for_opt {A} (n : nat) (body : nat -> A -> option A) (s : A) : option A :=
  match n with
  | O => Some s
  | S m => r <- for_opt m body s ;; body m r
  end.

(** the same function at every element of a list, stopping at undefined behaviour *)
Fixpoint map_opt {A B} (f : A -> option B) (l : list A) : option (list B) :=
  match l with
  | [] => Some []
  | a :: l' => b <- f a ;; r <- map_opt f l' ;; Some (b :: r)
  end.

(** assert(b) *)
Definition assert (b : bool) : option unit := if b then Some tt else None.

(** ** generic lemmas *)
Lemma bind_some : forall {A B} (m : option A) (f : A -> option B) b,
  bind m f = Some b <-> exists a, m = Some a /\ f a = Some b.
Proof.
  intros A B [a|] f b; simpl; split; intros H.
  - exists a; auto.
  - destruct H as [a' [E H]]. injection E as <-. assumption.
  - discriminate.
  - destruct H as [a' [E _]]. discriminate.
Qed.

Lemma for_opt_inv : forall {A} (I : nat -> A -> Prop) n body s,
  I 0 s ->
  (forall i s, i < n -> I i s -> exists s', body i s = Some s' /\ I (S i) s') ->
  exists s', for_opt n body s = Some s' /\ I n s'.
Proof.
  intros A I n body s H0 Hs.
  assert (H : forall k, k <= n -> exists s', for_opt k body s = Some s' /\ I k s').
  { induction k as [|k IH]; intros Hk; simpl; [eauto|].
    destruct IH as [s' [E Hi]]; [lia|]. rewrite E. simpl. apply Hs; [lia|assumption]. }
  apply H; lia.
Qed.

Lemma set_spec : forall {A} (v : list A) i x, i < length v ->
  exists v', set v i x = Some v' /\ length v' = length v
    /\ (forall j d, nth j v' d = if j =? i then x else nth j v d).
Proof.
  intros A v. induction v as [|a v IH]; intros i x Hi; simpl in Hi; [lia|].
  destruct i as [|i]; simpl.
  - eexists. split; [reflexivity|]. split; [reflexivity|]. intros [|j] d; reflexivity.
  - destruct (IH i x) as [v' [E [L N]]]; [lia|]. rewrite E. simpl.
    eexists. split; [reflexivity|]. split; [simpl; lia|]. intros [|j] d; simpl; [reflexivity|apply N].
Qed.

Lemma get_nth : forall {A} (v : list A) i d, i < length v -> get v i = Some (nth i v d).
Proof. intros. unfold get. apply nth_error_nth'. assumption. Qed.

Lemma get_none : forall {A} (v : list A) i, length v <= i -> get v i = None.
Proof. intros. apply nth_error_None. assumption. Qed.

Lemma set_none : forall {A} (v : list A) i x, length v <= i -> set v i x = None.
Proof.
  intros A v. induction v as [|a v IH]; intros i x Hi; [reflexivity|].
  destruct i; simpl in *; [lia|]. rewrite IH by lia. reflexivity.
Qed.

Lemma map_opt_spec : forall {A B} (f : A -> option B) (g : A -> B) l,
  (forall a, In a l -> f a = Some (g a)) -> map_opt f l = Some (map g l).
Proof.
  intros A B f g l H. induction l as [|a l IH]; simpl; [reflexivity|].
  rewrite H by (left; reflexivity). simpl. rewrite IH by (intros; apply H; right; assumption).
  reflexivity.
Qed.
