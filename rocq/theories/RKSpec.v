(* Specification: explicit Runge-Kutta methods given by a Butcher tableau, and
   their order conditions. *)
From Coq Require Import Reals List.
From Verif Require Import Base RKModel.
Open Scope R_scope.

Definition sum (l : list R) : R := fold_right Rplus 0 l.
(* dot product; missing entries count as zero *)
Fixpoint dot (x y : list R) : R :=
  match x, y with
  | a :: x, b :: y => a * b + dot x y
  | _, _ => 0
  end.

Section method.
  Variable I : Type.

  (* linear combination of states *)
  Fixpoint comb (x : list R) (ks : list (state I)) : state I :=
    match x, ks with
    | a :: x, k :: ks => fun i => a * k i + comb x ks i
    | _, _ => fun _ => 0
    end.

  (* k_s = f(u + dt * sum_{j<s} a_sj k_j) *)
  Fixpoint stages (rows : list (list R)) (dt : R) (f : state I -> state I) (u : state I)
           (ks : list (state I)) : list (state I) :=
    match rows with
    | [] => ks
    | row :: rows => stages rows dt f u (ks ++ [f (fun i => u i + dt * comb row ks i)])%list
    end.
  (* u + dt * sum b_j k_j *)
  Definition runge_kutta (rows : list (list R)) (b : list R) (dt : R) (f : state I -> state I)
             (u : state I) : state I :=
    fun i => u i + dt * comb b (stages rows dt f u []) i.
End method.
Arguments comb {I} x ks. Arguments stages {I} rows dt f u ks. Arguments runge_kutta {I} rows b dt f u.

(* Row number s has s entries: the method is explicit. *)
Definition explicit (rows : list (list R)) (b : list R) : Prop :=
  (forall s row, nth_error rows s = Some row -> List.length row = s) /\
  List.length b = List.length rows.

Definition cs (rows : list (list R)) : list R := map sum rows.
Definition apply (rows : list (list R)) (x : list R) : list R := map (fun row => dot row x) rows.
Definition mul (x y : list R) : list R := map (fun p => fst p * snd p) (combine x y).

(* The order conditions of Butcher: all rooted trees with up to 3 (4) nodes. *)
Definition order3 (rows : list (list R)) (b : list R) : Prop :=
  sum b = 1 /\
  dot b (cs rows) = 1/2 /\
  dot b (mul (cs rows) (cs rows)) = 1/3 /\
  dot b (apply rows (cs rows)) = 1/6.

Definition close (eps x y : R) : Prop := Rabs (x - y) <= eps.
Definition order4_within (eps : R) (rows : list (list R)) (b : list R) : Prop :=
  let c := cs rows in
  close eps (sum b) 1 /\
  close eps (dot b c) (1/2) /\
  close eps (dot b (mul c c)) (1/3) /\
  close eps (dot b (apply rows c)) (1/6) /\
  close eps (dot b (mul c (mul c c))) (1/4) /\
  close eps (dot b (mul c (apply rows c))) (1/8) /\
  close eps (dot b (apply rows (mul c c))) (1/12) /\
  close eps (dot b (apply rows (apply rows c))) (1/24).

(* n-fold iteration of a step *)
Fixpoint iterate {M} (n : nat) (step : M -> M) (m : M) : M :=
  match n with 0%nat => m | S n => iterate n step (step m) end.

(* linear functionals on states *)
Definition linear {I} (L : state I -> R) : Prop :=
  (forall x y, L (fun i => x i + y i) = L x + L y) /\
  (forall a x, L (fun i => a * x i) = a * L x).

(* ---- local accuracy ---- *)
(* N is a seminorm on states. *)
Definition seminorm {I} (N : state I -> R) : Prop :=
  (forall x y, N (fun i => x i + y i) <= N x + N y) /\
  (forall a x, N (fun i => a * x i) = Rabs a * N x).

(* f has a second-order Taylor expansion at u: f(u+d) = f(u) + L d + Q(d,d) + O(|d|^3). *)
Definition taylor2 {I} (N : state I -> R) (f : state I -> state I) (u : state I)
           (L : state I -> state I) (Q : state I -> state I -> state I) : Prop :=
  (forall a b x y, L (fun i => a * x i + b * y i) = (fun i => a * L x i + b * L y i)) /\
  (forall a b x y z, Q (fun i => a * x i + b * y i) z = (fun i => a * Q x z i + b * Q y z i)) /\
  (forall a b x y z, Q z (fun i => a * x i + b * y i) = (fun i => a * Q z x i + b * Q z y i)) /\
  exists C delta, 0 < delta /\
    (forall d, N (L d) <= C * N d) /\
    (forall d e, N (Q d e) <= C * N d * N e) /\
    (forall d, N d <= delta ->
       N (fun i => f (fun j => u j + d j) i - (f u i + L d i + Q d d i)) <= C * N d ^ 3).

(* The Taylor polynomial of degree 3, in h, of the solution of y' = f(y), y(0) = u:
   y' = f, y'' = L f, y''' = 2 Q(f,f) + L L f. *)
Definition taylor_solution {I} (f : state I -> state I) (u : state I)
           (L : state I -> state I) (Q : state I -> state I -> state I) (h : R) : state I :=
  fun i => u i + h * f u i + h^2/2 * L (f u) i
             + h^3/6 * (2 * Q (f u) (f u) i + L (L (f u)) i).

(* The error committed in one step is O(h^4). *)
Definition third_order_at {I} (N : state I -> R) (step : R -> state I -> state I)
           (u : state I) (exact : R -> state I) : Prop :=
  exists C h0, 0 < h0 /\ forall h, 0 <= h <= h0 -> N (fun i => step h u i - exact h i) <= C * h^4.
