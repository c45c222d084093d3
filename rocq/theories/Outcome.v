(** Observable outcomes of a C++ computation.

    The library is C++ with exceptions, [exit], [assert] and undefined
    behaviour; each of them is a distinct result here, so that "returns a
    value" is always something a theorem has to establish. *)
From Coq Require Import List ZArith Bool.
Import ListNotations.

(** Exception types thrown by the library or by the standard containers.
    [CString] is a thrown string literal ([throw ("...")], a [const char*]). *)
Inductive exn := OutOfRange | RuntimeError | InvalidArgument | CString | LengthError.

Inductive outcome (A : Type) : Type :=
| Ok (a : A)            (* normal return *)
| Throw (e : exn)       (* C++ exception *)
| Exit (code : Z)       (* call of exit(code) *)
| Abort                 (* failed assert() *)
| UB.                   (* undefined behaviour *)
Arguments Ok {A} a.
Arguments Throw {A} e.
Arguments Exit {A} code.
Arguments Abort {A}.
Arguments UB {A}.

Definition bind {A B} (m : outcome A) (k : A -> outcome B) : outcome B :=
  match m with
  | Ok a => k a
  | Throw e => Throw e
  | Exit c => Exit c
  | Abort => Abort
  | UB => UB
  end.

Notation "'let*' x ':=' m 'in' k" := (bind m (fun x => k))
  (at level 200, x pattern, m at level 100, k at level 200, right associativity).

Definition omap {A B} (f : A -> B) (m : outcome A) : outcome B :=
  bind m (fun a => Ok (f a)).

(** Build mode: [assert] is active unless NDEBUG is defined. *)
Inductive build := Debug | Release.

Definition cassert (b : build) (c : bool) : outcome unit :=
  match b with
  | Debug => if c then Ok tt else Abort
  | Release => Ok tt
  end.

(** [std::vector::at]: bounds-checked access, throws [std::out_of_range]. *)
Definition vat {A} (l : list A) (i : nat) : outcome A :=
  match nth_error l i with
  | Some a => Ok a
  | None => Throw OutOfRange
  end.

(** [std::vector::operator[]]: unchecked access, undefined out of bounds. *)
Definition vidx {A} (l : list A) (i : nat) : outcome A :=
  match nth_error l i with
  | Some a => Ok a
  | None => UB
  end.

(** [for (auto x : l) out.push_back(f(x));] stops at the first failure. *)
Fixpoint mapM {A B} (f : A -> outcome B) (l : list A) : outcome (list B) :=
  match l with
  | [] => Ok []
  | x :: l' => let* y := f x in let* ys := mapM f l' in Ok (y :: ys)
  end.

(** [for (auto x : l) s = f(s, x);] stops at the first failure. *)
Fixpoint foldM {A S} (f : S -> A -> outcome S) (s : S) (l : list A) : outcome S :=
  match l with
  | [] => Ok s
  | x :: l' => let* s' := f s x in foldM f s' l'
  end.

Lemma bind_ok {A B} (m : outcome A) (k : A -> outcome B) b :
  bind m k = Ok b -> exists a, m = Ok a /\ k a = Ok b.
Proof. destruct m; simpl; intros H; try discriminate. eauto. Qed.

Lemma vat_ok {A} (l : list A) i a : vat l i = Ok a <-> nth_error l i = Some a.
Proof. unfold vat. destruct (nth_error l i); split; intros H; congruence. Qed.

Lemma vat_lt {A} (l : list A) i d : i < length l -> vat l i = Ok (nth i l d).
Proof. intros H. unfold vat. rewrite (nth_error_nth' l d H). reflexivity. Qed.

Lemma vat_ge {A} (l : list A) i : length l <= i -> vat l i = Throw OutOfRange.
Proof. intros H. unfold vat. apply nth_error_None in H. rewrite H. reflexivity. Qed.

Lemma vidx_lt {A} (l : list A) i d : i < length l -> vidx l i = Ok (nth i l d).
Proof. intros H. unfold vidx. rewrite (nth_error_nth' l d H). reflexivity. Qed.

Lemma vidx_ge {A} (l : list A) i : length l <= i -> vidx l i = UB.
Proof. intros H. unfold vidx. apply nth_error_None in H. rewrite H. reflexivity. Qed.

Lemma mapM_ok_map {A B} (f : A -> outcome B) (g : A -> B) l :
  (forall x, In x l -> f x = Ok (g x)) -> mapM f l = Ok (map g l).
Proof.
  induction l as [|x l IH]; simpl; intros H; [reflexivity|].
  rewrite (H x) by auto. simpl. rewrite IH by auto. reflexivity.
Qed.

Lemma mapM_Ok_inv {A B} (f : A -> outcome B) l out :
  mapM f l = Ok out -> Forall2 (fun x y => f x = Ok y) l out.
Proof.
  revert out. induction l as [|x l IH]; simpl; intros out H.
  - injection H as <-. constructor.
  - apply bind_ok in H as (y & Hy & H). apply bind_ok in H as (ys & Hys & H).
    injection H as <-. constructor; auto.
Qed.
