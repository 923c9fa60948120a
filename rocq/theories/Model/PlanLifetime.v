(** Construction, moves and destruction of the vendor FFT plans.
    A plan object owns at most one library handle: the FFTSetup of apple_vdsp_fft_plan and
    apple_vdsp_split_fft_plan, the DFTI descriptor of intel_mkl_fft_plan, the specification
    buffer of the five intel_ipp_*_plan types (their work buffer has the same life).
    Copying is deleted for all of them.  What the transforms compute is in Model/VendorFft.v;
    the moved-from object's own arrays are not modelled. *)
From Coq Require Import List Arith Bool.
From Verif Require Import Base.Outcome.
Import ListNotations.

Inductive vendor := Vdsp | Mkl | Ipp.

(** What a plan owns and the handle it passes to the library; the same member for Accelerate
    and MKL (src/neo/fft/backend/vdsp.hpp:68, mkl.hpp:98), the unique_ptr _spec_buf and the raw
    pointer _handle for IPP (src/neo/fft/backend/ipp.hpp:214-215). *)
Record plan_obj := PlanObj { own : option nat; raw : option nat }.

(** Live plan objects by name, live library handles, and the next fresh handle. *)
Record world := World { objs : nat -> option plan_obj; live : list nat; fresh : nat }.

Definition start : world := World (fun _ => None) [] 0.

(** What a program does to plan objects: [Swap]-like idioms are sequences of these. *)
Inductive plan_op :=
| Create (x : nat)
| MoveConstruct (x y : nat)
| MoveAssign (x y : nat)
| Destroy (x : nat)
| Run (x : nat).

Definition set (f : nat -> option plan_obj) (x : nat) (o : option plan_obj) : nat -> option plan_obj :=
  fun y => if Nat.eqb y x then o else f y.

(** Library release of a handle; releasing one that is not live is undefined. *)
Definition release (h : option nat) (l : list nat) : outcome (list nat) :=
  match h with
  | None => Ok l
  | Some h => if existsb (Nat.eqb h) l then Ok (filter (fun k => negb (Nat.eqb k h)) l) else UB
  end.

(** The object after it was moved from: std::exchange(other._plan, nullptr) for Accelerate
    (src/neo/fft/backend/vdsp.hpp:37-53 and 163-179); the defaulted move of MKL's unique_ptr
    (mkl.hpp:37-38); the defaulted move of IPP empties _spec_buf but copies the raw pointer
    _handle (ipp.hpp:134-135, 235-236, 319-320, 412-413, 510-511). *)
Definition moved_from (b : vendor) (o : plan_obj) : plan_obj :=
  match b with
  | Vdsp | Mkl => PlanObj None None
  | Ipp => PlanObj None (raw o)
  end.

(** One step; Throw stands for a program that names an object outside its lifetime, which no
    well-formed program does.
    Constructors: vdsp.hpp:75-90 and 200-211, mkl.hpp:25, ipp.hpp:125-129, 227-230, 311-314,
    404-407, 502-505.  Destructors: vdsp.hpp:94-103 and 215-224, mkl.hpp:27-32, implicit for IPP.
    Move assignment: vdsp.hpp:45-53 and 171-179 overwrite _plan; MKL's is defaulted and deletes
    only the struct holding the descriptor; unique_ptr's releases the old IPP buffer. *)
Definition step (b : vendor) (w : world) (op : plan_op) : outcome world :=
  match op with
  | Create x =>
      match objs w x with
      | Some _ => Throw
      | None => Ok (World (set (objs w) x (Some (PlanObj (Some (fresh w)) (Some (fresh w)))))
                          (fresh w :: live w) (S (fresh w)))
      end
  | MoveConstruct x y =>
      match objs w x, objs w y with
      | None, Some o => Ok (World (set (set (objs w) y (Some (moved_from b o))) x (Some o)) (live w) (fresh w))
      | _, _ => Throw
      end
  | MoveAssign x y =>
      match objs w x, objs w y with
      | Some _, Some o =>
          let objs1 := set (objs w) y (Some (moved_from b o)) in
          let old := match objs1 x with Some d => own d | None => None end in
          let objs2 := set objs1 x (Some o) in
          match b with
          | Vdsp | Mkl => Ok (World objs2 (live w) (fresh w))
          | Ipp => l <- release old (live w) ;; Ok (World objs2 l (fresh w))
          end
      | _, _ => Throw
      end
  | Destroy x =>
      match objs w x with
      | None => Throw
      | Some o => l <- release (own o) (live w) ;; Ok (World (set (objs w) x None) l (fresh w))
      end
  | Run x =>
      match objs w x with
      | None => Throw
      | Some o =>
          match raw o with
          | None => UB
          | Some h => if existsb (Nat.eqb h) (live w) then Ok w else UB
          end
      end
  end.

Fixpoint exec (b : vendor) (w : world) (ops : list plan_op) : outcome world :=
  match ops with
  | [] => Ok w
  | op :: rest => w <- step b w op ;; exec b w rest
  end.
