(* Model of the SymPy expressions that OpenSBLI manipulates. *)
From Verif Require Import Base.
From Coq Require Import QArith.
Local Close Scope Q_scope.

(* opensbliobjects.py: the leaf classes that code generation distinguishes.
   KConst   ConstantObject            (opensbliobjects.py 123-185)
   KConstIx ConstantIndexed           (187-262)
   KGlobal  GlobalValue/Globalvariable(486-515)
   KGridVar GridVariable              (grid.py 214-243)
   KGridIdx Grididx                   (466-483)
   KCoord   CoordinateObject
   KObj     DataObject (not yet placed on a block)
   KSym     any other symbol *)
Inductive kind := KConst | KConstIx | KGlobal | KGridVar | KGridIdx | KCoord | KObj | KSym.

(* Heads of compound expressions: n-ary Add and Mul, Pow, Max, comparison and
   logical operators, the central derivative and any other function. *)
Inductive head :=
| HAdd | HMul | HPow | HMax
| HCD                       (* CentralDerivative(expr, directions...) *)
| HFun (f : string).        (* sin, exp, Piecewise, comparisons, ... *)

(* EDat b ix: a DataSet, i.e. the array with printed base name b at the
   relative location ix (opensbliobjects.py 385-424; the block index stored
   as an extra argument is part of the printed base name "%s_B%s"). *)
Inductive expr :=
| ENum (q : Q)
| ESym (k : kind) (name : string)
| EDat (base : string) (ix : list Z)
| EApp (h : head) (args : list expr).

Section ind.
  Variable P : expr -> Prop.
  Hypothesis Hnum : forall q, P (ENum q).
  Hypothesis Hsym : forall k n, P (ESym k n).
  Hypothesis Hdat : forall b ix, P (EDat b ix).
  Hypothesis Happ : forall h args, Forall P args -> P (EApp h args).
  Fixpoint expr_ind' (e : expr) : P e :=
    match e with
    | ENum q => Hnum q
    | ESym k n => Hsym k n
    | EDat b ix => Hdat b ix
    | EApp h args =>
        Happ h args ((fix go (l : list expr) : Forall P l :=
                        match l with
                        | [] => Forall_nil P
                        | x :: l => Forall_cons x (expr_ind' x) (go l)
                        end) args)
    end.
End ind.

(* Interpretation of the symbols; nothing is assumed about the operators, so
   claims about equal values hold for exact and for floating point arithmetic. *)
Record interp (V : Type) := {
  inum : Q -> V;
  isym : kind -> string -> V;
  iapp : head -> list V -> V
}.
Arguments inum {V} _ _.
Arguments isym {V} _ _ _.
Arguments iapp {V} _ _ _.

(* Value of an expression at a grid point: [dat b ix] is the value of array b at
   relative location ix from that point. *)
Fixpoint eval {V} (I : interp V) (dat : string -> list Z -> V) (e : expr) : V :=
  match e with
  | ENum q => inum I q
  | ESym k n => isym I k n
  | EDat b ix => dat b ix
  | EApp h args => iapp I h (map (eval I dat) args)
  end.

(* Decidable equality. *)
Lemma kind_eq_dec (a b : kind) : {a = b} + {a <> b}.
Proof. decide equality. Defined.
Lemma head_eq_dec (a b : head) : {a = b} + {a <> b}.
Proof. decide equality. apply string_dec. Defined.
Lemma Q_leib_dec (a b : Q) : {a = b} + {a <> b}.
Proof. decide equality; [apply Pos.eq_dec|apply Z.eq_dec]. Defined.

Fixpoint expr_eq_dec (a b : expr) {struct a} : {a = b} + {a <> b}.
Proof.
  destruct a as [q|k n|s i|h l], b as [q'|k' n'|s' i'|h' l']; try (right; discriminate).
  - destruct (Q_leib_dec q q'); [left|right]; congruence.
  - destruct (kind_eq_dec k k'), (string_dec n n'); try (left; congruence); right; congruence.
  - destruct (string_dec s s'), (list_eq_dec Z.eq_dec i i');
      try (left; congruence); right; congruence.
  - destruct (head_eq_dec h h'); [|right; congruence].
    assert (D : {l = l'} + {l <> l'}).
    { revert l'; induction l as [|x l IH]; intros [|y l']; try (right; discriminate);
        [now left|].
      destruct (expr_eq_dec x y); [|right; congruence].
      destruct (IH l'); [left|right]; congruence. }
    destruct D; [left|right]; congruence.
Defined.

Definition dset := (string * list Z)%type.
Lemma dset_eq_dec (a b : dset) : {a = b} + {a <> b}.
Proof. decide equality; [apply (list_eq_dec Z.eq_dec)|apply string_dec]. Defined.

(* expr.atoms(DataSet): all data sets occurring in the expression.  The order
   of the list stands for one traversal; SymPy returns an unordered set, see
   the users of this function. *)
Fixpoint dsets (e : expr) : list dset :=
  match e with
  | ENum _ | ESym _ _ => []
  | EDat b ix => [(b, ix)]
  | EApp _ args => (fix go l := match l with [] => [] | x :: l => dsets x ++ go l end) args
  end.

(* expr.atoms(K) for a leaf class K. *)
Fixpoint syms (k : kind) (e : expr) : list string :=
  match e with
  | ENum _ | EDat _ _ => []
  | ESym k' n => if kind_eq_dec k k' then [n] else []
  | EApp _ args => (fix go l := match l with [] => [] | x :: l => syms k x ++ go l end) args
  end.

(* expr.replace(dset, new) / xreplace for a data set: every occurrence of the
   data set is replaced. *)
Fixpoint replace1 (old : dset) (new : expr) (e : expr) : expr :=
  match e with
  | ENum _ | ESym _ _ => e
  | EDat b ix => if dset_eq_dec (b, ix) old then new else e
  | EApp h args => EApp h (map (replace1 old new) args)
  end.

(* Simultaneous relocation of all data sets. *)
Fixpoint map_dsets (f : dset -> dset) (e : expr) : expr :=
  match e with
  | ENum _ | ESym _ _ => e
  | EDat b ix => let '(b', ix') := f (b, ix) in EDat b' ix'
  | EApp h args => EApp h (map (map_dsets f) args)
  end.

(* General replacement of a subexpression (SymPy subs with one pair, without
   re-evaluation of the rebuilt node). *)
Fixpoint subst1 (old new e : expr) : expr :=
  if expr_eq_dec e old then new
  else match e with
       | EApp h args => EApp h (map (subst1 old new) args)
       | _ => e
       end.
