(** What it means for a parallel loop to have a result. *)
From Verif Require Import Base MPar.

Section Spec.
  Context {C : Type}.

  (** the loop [for i in prange(n): body(i)] over the rows of an array *)
  Definition start (body : nat -> prog C unit) (rows : list (list C)) : state C :=
    (map body (seq 0 (length rows)), mem_of rows).

  (** Every schedule of the loop ends; and if the result is [Ok rows] all
      iterations have returned and the array holds [rows], else some
      iteration has raised. *)
  Definition every_schedule (body : nat -> prog C unit) (rows0 : list (list C)) (r : res (list (list C))) : Prop :=
    Acc (fun a b => pstep b a) (start body rows0)
    /\ forall s, reach (start body rows0) s -> finished s ->
       match r with
       | Ok rows => (forall p, In p (fst s) -> p = Ret tt) /\ forall a, snd s a = mem_of rows a
       | Err _ => exists e, In (Crash e) (fst s)
       end.

  (** rows of one-dimensional arrays *)
  Definition single (c : C) : list C := [c].
  Definition width (n : nat) (rows : list (list C)) : Prop := Forall (fun row => length row = n) rows.
End Spec.
