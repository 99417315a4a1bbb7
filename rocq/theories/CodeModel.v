(* Model of the text side of code generation (opsc.py, helperfunctions.py). *)
From Verif Require Import Base.

(* Python 2 byte strings as lists of characters. *)
Definition text := list ascii.
Definition T (s : string) : text := list_ascii_of_string s.
Definition SP : ascii := " "%char.
Definition NL : ascii := "010"%char.

(* str.isspace for one character: blank, \t \n \v \f \r. *)
Definition isspace (c : ascii) : bool :=
  let n := nat_of_ascii c in
  ((n =? 32) || ((9 <=? n) && (n <=? 13)))%nat.

(* str.lstrip() *)
Fixpoint lstrip (s : text) : text :=
  match s with
  | [] => []
  | c :: s' => if isspace c then lstrip s' else s
  end.

(* str.split(" "): always at least one piece; pieces may be empty. *)
Fixpoint split_sp (s : text) : list text :=
  match s with
  | [] => [[]]
  | c :: s' =>
      if ascii_dec c SP then [] :: split_sp s'
      else match split_sp s' with
           | [] => [[c]]
           | p :: ps => (c :: p) :: ps
           end
  end.

(* "".join(s.split()): all white space removed. *)
Definition squeeze (s : text) : text := filter (fun c => negb (isspace c)) s.

Definition text_dec : forall a b : text, {a = b} + {a <> b} := list_eq_dec ascii_dec.

(* ---- opsc.py 284-320: wrap_long_lines ---- *)

Definition limit : nat := 120.                                       (* 286 *)

(* 298-305: the state is (split_lines, string). *)
Fixpoint wrap_loop (lead : nat) (acc : list text) (str : text) (ws : list text)
  : list text * text :=
  match ws with
  | [] => (acc, str)
  | s :: ws =>
      if (limit <=? List.length str + List.length s)%nat
      then wrap_loop lead (acc ++ [str]) (repeat SP (lead + lead) ++ s) ws
      else wrap_loop lead acc (str ++ [SP] ++ s) ws
  end.

(* 289-318 for one line *)
Definition wrap_line (code : text) : result (list text) :=
  if (limit <? List.length code)%nat then
    let lead := (List.length code - List.length (lstrip code))%nat in
    let '(acc, str) := wrap_loop lead [] (repeat SP lead) (split_sp (lstrip code)) in
    let pieces := acc ++ [str] in
    if text_dec (squeeze (List.concat pieces)) (squeeze code) then Ok pieces
    else Err ValueError
  else Ok [code].

Fixpoint wrap_long_lines (code_lines : list text) : result (list text) :=
  match code_lines with
  | [] => Ok []
  | c :: cs =>
      bind (wrap_line c) (fun a => bind (wrap_long_lines cs) (fun b => Ok (a ++ b)))
  end.

(* ---- opsc.py 91-103: _print_Max ---- *)

(* 98-102: nargs - 1 times, the last two entries are replaced by their fmax. *)
Definition fmax_text (a b : string) : string := ("fmax(" ++ a ++ ", " ++ b ++ ")")%string.
Definition max_step (l : list string) : list string :=
  match rev l with
  | b :: a :: front => rev front ++ [fmax_text a b]
  | _ => l
  end.
Definition print_Max (args : list string) : result string :=
  match Nat.iter (List.length args - 1) max_step args with
  | s :: _ => Ok s
  | [] => Err IndexErr
  end.

(* ---- opsc.py 371-399: if / else if / else for a grouped piecewise ---- *)

(* The lines appended to `out`, cut into C tokens.  C conditions are the printed
   condition, or the literal true. *)
Inductive ccond (C : Type) := CTrue | CCond (c : C).
Arguments CTrue {C}.
Arguments CCond {C} c.

Inductive tok (A C : Type) :=
| TIf (c : ccond C)      (* "if (c)"  *)
| TElse                  (* "else"    *)
| TOpen                  (* "{"       *)
| TClose                 (* "}"       *)
| TStmt (a : A).         (* "lhs = rhs;" *)
Arguments TIf {A C} c.
Arguments TElse {A C}.
Arguments TOpen {A C}.
Arguments TClose {A C}.
Arguments TStmt {A C} a.

Section piecewise.
  Variables A C : Type.

  (* A branch: its assignments and its condition: None is False, Some CTrue is
     True, Some (CCond c) anything else. *)
  Definition branch := (list A * option (ccond C))%type.

  (* opensbliobjects.py 585-590: the SymPy constructor Piecewise.__new__ drops
     branches with condition False and everything after a condition True. *)
  Fixpoint piecewise_new (bs : list branch) : list (list A * ccond C) :=
    match bs with
    | [] => []
    | (e, None) :: bs => piecewise_new bs
    | (e, Some CTrue) :: _ => [(e, CTrue)]
    | (e, Some (CCond c)) :: bs => (e, CCond c) :: piecewise_new bs
    end.

  Definition branch_body (e : list A) : list (tok A C) :=
    [TOpen] ++ map TStmt e ++ [TClose].

  (* 375-399; [i] is the position in eq.args *)
  Fixpoint group_tokens (i : nat) (bs : list (list A * ccond C)) : list (tok A C) :=
    match bs with
    | [] => []
    | (e, c) :: bs =>
        (if (i =? 0)%nat then [TIf c]
         else match c with
              | CCond _ => [TElse; TIf c]
              | CTrue => [TElse]
              end) ++ branch_body e ++ group_tokens (S i) bs
    end.

  (* 371-399 for the equations of a kernel *)
  Inductive geq := GEq (a : A) | GGroup (bs : list branch).

  Definition body_tokens (eqs : list geq) : list (tok A C) :=
    flat_map (fun q => match q with
                       | GEq a => [TStmt a]
                       | GGroup bs => group_tokens 0 (piecewise_new bs)
                       end) eqs.
End piecewise.
Arguments branch : clear implicits.
Arguments piecewise_new {A C} bs.
Arguments branch_body {A C} e.
Arguments group_tokens {A C} i bs.
Arguments GEq {A C} a.
Arguments GGroup {A C} bs.
Arguments body_tokens {A C} eqs.

(* ---- constants: opsc.py 21-45, 66-77, 163-186; helperfunctions.py 64-77;
        kernel.py 20-35 ---- *)

Section constants.
  (* Keys of the table of shared constants: numbers, reciprocal powers. *)
  Variable K : Type.
  Hypothesis K_dec : forall a b : K, {a = b} + {a <> b}.

  (* A declared constant: its name and its value (None: "Input").  Equality of
     ConstantObjects is equality of names (opensbliobjects.py 149-150). *)
  Definition cdecl := (string * option K)%type.

  Record cstate := {
    rational_counter : nat;
    existing : list (K * string);
    constants : list cdecl
  }.
  Definition cinit : cstate := {| rational_counter := 0; existing := []; constants := [] |}.

  (* kernel.py 24-30 *)
  Definition add_constant (l : list cdecl) (c : cdecl) : list cdecl :=
    if in_dec string_dec (fst c) (map fst l) then l else l ++ [c].

  Definition lookup (k : K) (l : list (K * string)) : option string :=
    match find (fun p => if K_dec (fst p) k then true else false) l with
    | Some p => Some (snd p) | None => None end.

  (* opsc.py 34-42; [pre] is rc.name without "%d" *)
  Definition get_next_rational_constant (pre : string) (k : K) (s : cstate) : cstate * string :=
    let name := (pre ++ dec (rational_counter s))%string in
    ({| rational_counter := rational_counter s + 1;
        existing := (k, name) :: existing s;
        constants := add_constant (constants s) (name, Some k) |}, name).

  (* opsc.py 74-77 with pre = "rc"; 173-183 with pre = "rcinv";
     helperfunctions.py 64-77 with pre = "inv_". *)
  Definition shared_constant (pre : string) (k : K) (s : cstate) : cstate * string :=
    match lookup k (existing s) with
    | Some n => (s, n)
    | None => get_next_rational_constant pre k s
    end.

  Inductive origin := Orat | Opow | Odelta.
  Definition prefix_of (o : origin) : string :=
    match o with Orat => "rc" | Opow => "rcinv" | Odelta => "inv_" end%string.

  (* What happens to the tables during a run: a number or power is printed, or
     constants of the user's equations are declared. *)
  Inductive cop := Use (o : origin) (k : K) | Declare (cs : list string).

  Definition cstep (s : cstate) (op : cop) : cstate * list (K * string) :=
    match op with
    | Use o k => let '(s', n) := shared_constant (prefix_of o) k s in (s', [(k, n)])
    | Declare cs =>
        ({| rational_counter := rational_counter s; existing := existing s;
            constants := fold_left add_constant (map (fun c => (c, None)) cs) (constants s) |}, [])
    end.

  (* The trace lists which name was printed for which constant. *)
  Fixpoint crun (s : cstate) (ops : list cop) : cstate * list (K * string) :=
    match ops with
    | [] => (s, [])
    | op :: ops =>
        let '(s1, t1) := cstep s op in
        let '(s2, t2) := crun s1 ops in (s2, t1 ++ t2)
    end.
End constants.
Arguments rational_counter {K} c.
Arguments existing {K} c.
Arguments constants {K} c.
Arguments cinit {K}.
Arguments add_constant {K} l c.
Arguments Use {K} o k.
Arguments Declare {K} cs.
Arguments lookup {K} K_dec k l.
Arguments get_next_rational_constant {K} pre k s.
Arguments shared_constant {K} K_dec pre k s.
Arguments cstep {K} K_dec s op.
Arguments crun {K} K_dec s ops.

(* ---- opsc.py 595-609: loop_alg on the algorithm tree ---- *)

(* A component either has components of its own (loops, conditions, timers, the
   program) or is a leaf; leaves are identified by their Python identity, and
   [want] says which class a leaf belongs to. *)
Inductive comp := Node (components : list comp) | Leaf (ident : nat).

Section loop.
  Variable want : nat -> bool.
  Fixpoint gen_comp (acc : list nat) (c : comp) : list nat :=
    match c with
    | Node cs => (fix go (acc : list nat) (cs : list comp) : list nat :=
                    match cs with [] => acc | c :: cs => go (gen_comp acc c) cs end) acc cs
    | Leaf k => if want k then (if in_dec Nat.eq_dec k acc then acc else acc ++ [k]) else acc
    end.
  Definition loop_alg (prg : list comp) : list nat := fold_left gen_comp prg [].
End loop.

(* ---- opsc.py 407-433: write_kernels ---- *)

(* [blocks]: the numbers of the blocks in the order of block_descriptions.
   [kernels]: block number and text of every kernel.  The result gives for each
   file (in the order of [blocks]) the texts written to it. *)
Fixpoint write_at {A} (i : nat) (x : A) (files : list (list A)) : option (list (list A)) :=
  match files, i with
  | [], _ => None
  | f :: fs, 0 => Some ((f ++ [x]) :: fs)
  | f :: fs, S i => match write_at i x fs with Some r => Some (f :: r) | None => None end
  end.
Fixpoint write_all {A} (files : list (list A)) (kernels : list (nat * A)) : result (list (list A)) :=
  match kernels with
  | [] => Ok files
  | (b, x) :: ks =>
      match write_at b x files with
      | Some fs => write_all fs ks
      | None => Err IndexErr
      end
  end.
Definition write_kernels {A} (blocks : list nat) (kernels : list (nat * A)) : result (list (list A)) :=
  write_all (map (fun _ => []) blocks) kernels.

(* ---- helperfunctions.py 130-149: substitute_simulation_parameters ---- *)

Fixpoint strip_prefix (p s : text) : option text :=
  match p, s with
  | [], _ => Some s
  | a :: p, b :: s => if ascii_dec a b then strip_prefix p s else None
  | _ :: _, [] => None
  end.

(* s.replace(old, new) for a non-empty old: leftmost, non-overlapping.  The
   fuel is the length of the text. *)
Fixpoint pyreplace_fuel (n : nat) (old new s : text) : text :=
  match n with
  | 0 => s
  | S n =>
      match strip_prefix old s with
      | Some rest => new ++ pyreplace_fuel n old new rest
      | None => match s with [] => [] | c :: s' => c :: pyreplace_fuel n old new s' end
      end
  end.
Definition pyreplace (old new s : text) : text := pyreplace_fuel (S (List.length s)) old new s.

(* 145-148; the test `old_str in s` only skips a replacement without effect. *)
Definition subst_one (s : text) (p : text * text) : text :=
  let '(const, value) := p in
  pyreplace (const ++ T "=Input;") (const ++ T " = " ++ value ++ T ";") s.
(* [subs] is the dictionary of substitutions in iteration order. *)
Definition substitute_simulation_parameters (subs : list (text * text)) (s : text) : text :=
  fold_left subst_one subs s.
