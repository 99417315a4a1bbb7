(* Specification vocabulary for the text side of code generation. *)
From Verif Require Import Base CodeModel.

(* ---- lines and words ---- *)

(* The maximal runs of non-blank characters of a text. *)
Fixpoint words_from (cur : text) (s : text) : list text :=
  match s with
  | [] => match cur with [] => [] | _ => [cur] end
  | c :: s =>
      if isspace c then match cur with [] => words_from [] s | _ => cur :: words_from [] s end
      else words_from (cur ++ [c]) s
  end.
Definition words (s : text) : list text := words_from [] s.

(* Lines written one after the other. *)
Fixpoint join_lines (ls : list text) : text :=
  match ls with [] => [] | [l] => l | l :: ls => l ++ [NL] ++ join_lines ls end.

(* An indented single word. *)
Definition one_word (l : text) : Prop :=
  exists n s, l = repeat SP n ++ s /\ ~ In SP s.

(* ---- C statements ---- *)

Section C.
  Variables A C S : Type.
  Variable run : A -> S -> S.
  Variable test : C -> S -> bool.

  Inductive cstmt :=
  | SAssign (a : A)
  | SBlock (l : list cstmt)
  | SIf (c : ccond C) (t : cstmt) (e : option cstmt).

  (* Recursive descent for the C grammar
       stmt  ::= a; | { stmt* } | if (c) stmt [else stmt]
     with "else" attached to the nearest "if". *)
  Fixpoint pstmt (n : nat) (ts : list (tok A C)) : option (cstmt * list (tok A C)) :=
    match n with
    | 0 => None
    | Datatypes.S n =>
        match ts with
        | TStmt a :: r => Some (SAssign a, r)
        | TOpen :: r =>
            match pstmts n r with
            | Some (l, TClose :: r') => Some (SBlock l, r')
            | _ => None
            end
        | TIf c :: r =>
            match pstmt n r with
            | Some (t, TElse :: r2) =>
                match pstmt n r2 with
                | Some (e, r3) => Some (SIf c t (Some e), r3)
                | None => None
                end
            | Some (t, r1) => Some (SIf c t None, r1)
            | None => None
            end
        | _ => None
        end
    end
  with pstmts (n : nat) (ts : list (tok A C)) : option (list cstmt * list (tok A C)) :=
    match n with
    | 0 => None
    | Datatypes.S n =>
        match ts with
        | [] => Some ([], [])
        | TClose :: _ => Some ([], ts)
        | _ => match pstmt n ts with
               | Some (s, r) => match pstmts n r with
                                | Some (l, r') => Some (s :: l, r')
                                | None => None
                                end
               | None => None
               end
        end
    end.
  Definition parse (ts : list (tok A C)) : option (list cstmt) :=
    match pstmts (Datatypes.S (2 * List.length ts)) ts with
    | Some (l, []) => Some l
    | _ => None
    end.

  Definition holds (c : ccond C) (s : S) : bool :=
    match c with CTrue => true | CCond c => test c s end.

  Fixpoint exec (p : cstmt) (s : S) : S :=
    match p with
    | SAssign a => run a s
    | SBlock l => (fix go (l : list cstmt) (s : S) : S :=
                     match l with [] => s | p :: l => go l (exec p s) end) l s
    | SIf c t e =>
        if holds c s then exec t s
        else match e with Some e => exec e s | None => s end
    end.
  Definition exec_all (l : list cstmt) (s : S) : S := fold_left (fun s p => exec p s) l s.

  (* What a grouped piecewise means: the assignments of the first branch whose
     condition is true, in order; nothing if there is none. *)
  Definition branch_true (b : branch A C) (s : S) : bool :=
    match snd b with None => false | Some c => holds c s end.
  Definition do_assignments (l : list A) (s : S) : S := fold_left (fun s a => run a s) l s.
  Definition meaning (q : geq A C) (s : S) : S :=
    match q with
    | GEq a => run a s
    | GGroup bs =>
        match find (fun b => branch_true b s) bs with
        | Some b => do_assignments (fst b) s
        | None => s
        end
    end.
  Definition meaning_all (qs : list (geq A C)) (s : S) : S := fold_left (fun s q => meaning q s) qs s.
End C.
Arguments SAssign {A C} a.
Arguments SBlock {A C} l.
Arguments SIf {A C} c t e.
Arguments parse {A C} ts.
Arguments exec_all {A C S} run test l s.
Arguments meaning_all {A C S} run test qs s.

(* ---- order of first occurrence ---- *)

(* [l] lists the elements of [reqs], each once, in the order of their first
   occurrences in [reqs]. *)
Definition first_occurrences {X} (l reqs : list X) : Prop :=
  NoDup l /\
  (forall x, In x l <-> In x reqs) /\
  (forall l1 x l2 y l3, l = l1 ++ x :: l2 ++ y :: l3 ->
     exists pre post, reqs = pre ++ x :: post /\ ~ In y pre).

(* All leaves of an algorithm tree from left to right. *)
Fixpoint leaves (c : comp) : list nat :=
  match c with
  | Leaf k => [k]
  | Node cs => (fix go (cs : list comp) := match cs with [] => [] | c :: cs => leaves c ++ go cs end) cs
  end.

(* Names produced for shared constants. *)
Definition generated_name (n : string) : Prop :=
  exists i, n = ("rc" ++ dec i)%string \/ n = ("rcinv" ++ dec i)%string \/ n = ("inv_" ++ dec i)%string.
Definition no_clash {K} (ops : list (cop K)) : Prop :=
  forall cs c, In (Declare cs) ops -> In c cs -> ~ generated_name c.

(* ---- program text with placeholders ---- *)

Definition contains (needle s : text) : Prop := exists a b, s = a ++ needle ++ b.
Definition is_suffix (a b : text) : Prop := exists p, b = p ++ a.

(* A line of the main program: the placeholder of constant c, or any other line. *)
Inductive line := LInput (c : text) | LOther (t : text).
Definition line_text (l : line) : text :=
  match l with LInput c => c ++ T "=Input;" | LOther t => t end.

(* Constants are identifiers: no line break and no '='; other lines contain no
   line break and no placeholder. *)
Definition wf_line (l : line) : Prop :=
  match l with
  | LInput c => ~ In NL c /\ ~ In "="%char c
  | LOther t => ~ In NL t /\ ~ contains (T "=Input;") t
  end.
Definition wf_sub (p : text * text) : Prop :=
  fst p <> [] /\ ~ In NL (fst p) /\ ~ In "="%char (fst p) /\
  ~ In NL (snd p) /\ ~ contains (T "=Input;") (snd p ++ T ";").

(* The intended result: placeholders of listed constants get their value. *)
Definition intended (subs : list (text * text)) (l : line) : text :=
  match l with
  | LOther t => t
  | LInput c =>
      match find (fun p => if text_dec (fst p) c then true else false) subs with
      | Some (_, v) => c ++ T " = " ++ v ++ T ";"
      | None => c ++ T "=Input;"
      end
  end.
