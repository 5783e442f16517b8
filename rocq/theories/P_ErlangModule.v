(** C70, C71, C72, C73, C74: the Erlang code of a module. *)
From Coq Require Import String NArith ZArith List Bool Lia ZifyBool ZifyN.
From Verif Require Import Text TextProofs Strings StringsSpec Erl ErlangSource ErlangSourceSpec ErlangTypes
  ErlangTypesSpec ErlangCode ErlangRun ErlangCodeSpec ErlangCodeWf ErlangModule ErlangModuleSpec ErlangModuleProofs.
Import ListNotations.
Local Open Scope nat_scope.
Local Open Scope list_scope.

(** C70: the code of a module is generated, Erlang reads it, and calling its functions does what
    calling them does in Gleam.  Excluded by [legal_module], see below, is some code that is
    generated wrongly; not in the model are floats, bit arrays, constants, [assert] and [echo]. *)
Theorem C70_generated_code_does_what_gleam_does_partial : forall m lines, legal_module m ->
  exists t forms, generated_module m lines = Some t /\ (forall fs, reads t fs <-> fs = forms) /\
    acts_as_gleam m lines forms.
Proof.
  intros m lines LM. destruct (module_generates m lines LM) as (exported & ds & coded & ts & t & CE & FT & CC & FC & G & R).
  exists t, (module_forms m exported ds ts). split; [exact G|]. split; [exact R|].
  exact (module_runs m lines exported ds coded ts LM FT CC FC).
Qed.
Print Assumptions C70_generated_code_does_what_gleam_does_partial.

(** C71: the forms of a module, in order. *)
Theorem C71_forms_of_a_module : forall m lines, legal_module m ->
  exists t forms, generated_module m lines = Some t /\ (forall fs, reads t fs <-> fs = forms) /\
    described m lines forms.
Proof.
  intros m lines LM. destruct (module_generates m lines LM) as (exported & ds & coded & ts & t & CE & FT & CC & FC & G & R).
  exists t, (module_forms m exported ds ts). split; [exact G|]. split; [exact R|].
  exact (forms_described m lines exported ds coded ts CE FT CC FC).
Qed.
Print Assumptions C71_forms_of_a_module.

(** C72: what is exported is defined.  No function that is not private is unused; and the private
    functions that have a name in a constant which is not private are used, and written in Gleam. *)
Theorem C72_exported_functions_are_defined_partial : forall m lines, legal_module m ->
  (forall f, In f (m_functions m) -> mf_publicity f <> Private -> ~ In (mf_start f) (m_unused m)) ->
  (forall f, In f (m_functions m) -> mf_publicity f = Private -> writes m (name_of f) ->
     ~ In (mf_start f) (m_unused m) /\ mf_external f = None) ->
  exists t forms, generated_module m lines = Some t /\ (forall fs, reads t fs <-> fs = forms) /\
    forall f arity, exports forms f arity -> defines forms f arity.
Proof.
  intros m lines LM H1 H2. destruct (module_generates m lines LM) as (exported & ds & coded & ts & t & CE & FT & CC & FC & G & R).
  exists t, (module_forms m exported ds ts). split; [exact G|]. split; [exact R|]. exact (forms_exports m lines exported ds coded ts CE FT CC FC H1 H2).
Qed.
Print Assumptions C72_exported_functions_are_defined_partial.

(** C73: the functions that a constant refers to can be called where the constant is used, since
    they are exported.  The constant has no name of another constant. *)
Theorem C73_functions_of_constants_are_exported_partial : forall m lines p c, legal_module m ->
  In (p, c) (m_constants m) -> p <> Private ->
  (forall n b d, ~ mentions c (CConstant n b d)) ->
  (forall n f e, mentions c (CFunction n (m_name m) f e) -> n = f) ->
  exists t forms, generated_module m lines = Some t /\ (forall fs, reads t fs <-> fs = forms) /\
    forall f, In f (m_functions m) -> mf_supports_erlang f = true ->
      refers_to c (m_name m, name_of f) -> exports forms (exported_name (name_of f)) (arity_of f).
Proof.
  intros m lines p c LM I NP NC NF. destruct (module_generates m lines LM) as (exported & ds & coded & ts & t & CE & FT & CC & FC & G & R).
  exists t, (module_forms m exported ds ts). split; [exact G|]. split; [exact R|].
  intros f IF SE RT. assert (X : In f exported).
  { apply (chosen_in _ _ _ CE). split; [exact IF|]. split; [exact SE|]. right. exists p, c. split; [exact I|]. split; [exact NP|]. left.
    inversion RT as [? n ? ? M|? n b d ? M _]; subst; [|destruct (NC _ _ _ M)]. assert (n = name_of f) by exact (NF _ _ _ M). subst n. eauto. }
  exists (map signature exported). split.
  - unfold module_forms, all_tops. right. apply in_flat_map. exists (Export (map signature exported)). split; [right; left; reflexivity|].
    destruct exported; [destruct X|]. left. reflexivity.
  - exact (in_map signature _ _ X).
Qed.
Print Assumptions C73_functions_of_constants_are_exported_partial.

(** C74: an external function that is not private can be called in the module too, and gives its
    arguments on. *)
Theorem C74_external_functions_pass_arguments_on : forall m lines, legal_module m ->
  exists t forms, generated_module m lines = Some t /\ (forall fs, reads t fs <-> fs = forms) /\
    forall f external_module external_name, In f (m_functions m) ->
      mf_supports_erlang f = true -> ~ In (mf_start f) (m_unused m) -> mf_publicity f <> Private ->
      mf_external f = Some (external_module, external_name) ->
      legal_foreign (InErlang external_module external_name) ->
      forall world h us u, length us = arity_of f ->
        world h (erlang_module_name external_module) external_name us = Some u ->
        calls_to forms world h (exported_name (name_of f)) us
          ((erlang_module_name external_module, external_name, us) :: h, inl u).
Proof.
  intros m lines LM. destruct (module_generates m lines LM) as (exported & ds & coded & ts & t & CE & FT & CC & FC & G & R).
  exists t, (module_forms m exported ds ts). split; [exact G|]. split; [exact R|].
  intros f em en IN SE NU NP EX LF world h us u LEN W.
  apply (external_runs m lines exported ds coded ts LM FT CC FC f em en IN); auto. split; [exact SE|]. split; [exact NU|]. right. exact NP.
Qed.
Print Assumptions C74_external_functions_pass_arguments_on.

(** ** Examples *)

Definition text_lines (l : list string) : text := flat_map (fun s => str s ++ [10%N]) l.
Definition int_ : gtype := GNamed (str "gleam") (str "Int") [].
Definition at_ (n : N) : span := (n, (n + 1)%N).
Definition arg (x : string) (n : N) : arg_names := ArgNamed (str x) (at_ n).
Definition local (x : string) (n : N) : expr := Var (str x) (LocalVariable (at_ n)).
Definition other (f : string) (arity : N) : expr :=
  Var (str f) (ModuleFn (str "app/other") (str f) arity None false).
Definition own (f : string) (arity : N) : expr :=
  Var (str f) (ModuleFn (str "m") (str f) arity None false).
Definition int_function (name : string) (args : list arg_names) (body : list stmt) (p : publicity)
    (start : N) : module_fn :=
  ModuleFunction (Function (str name) args body) start (map (fun _ => int_) args) int_ p None None true.
Definition int_module (constants : list (publicity * constant)) (l : list module_fn) (unused : list N) : module :=
  Module_ (str "m") (str "src/m.gleam") false [] constants [] l unused.
Definition no_lines : N -> N := fun _ => 1%N.

(** A module with a type, a constant, functions, and an external function:
<<
//// Shapes.
import app/other
pub type Shape { Circle(Int) Square(Int) Empty }
pub const scale = double
/// Of a shape.
pub fn area(shape: Shape) -> Int {
  case shape {
    Circle(r) if r > 0 -> 3 * { r * r }
    Square(s) | Circle(s) -> s * s
    Empty -> 0
  }
}
pub fn average(x, y) {
  let total = other.add(x, y)
  let total = double(total)
  let assert Ok(count) = other.count()
  other.log("count") |> other.log
  total / count
}
fn double(x) { x * 2 }
fn unused(x) { x }
@external(erlang, "lists", "sum")
pub fn sum(l: List(Int)) -> Int
@external(erlang, "lists", "max")
fn greatest(l: List(Int)) -> Int
>> *)
Definition shapes : module :=
  let shape := GNamed (str "m") (str "Shape") [] in
  let list_ := GNamed (str "gleam") (str "List") [int_] in
  let area := Function (str "area") [arg "shape" 100]
    [Expression_ (Case [local "shape" 100]
       [([PConstructor (0, 0)%N (str "Circle") [PVariable (at_ 110) (str "r")]], [],
         Some (GuardBinaryOperator GtInt (GuardVar (str "r") (at_ 110)) (GuardInt 0)),
         BinOp MultInt (Int 3) (Block [Expression_ (BinOp MultInt (local "r" 110) (local "r" 110))]));
        ([PConstructor (0, 0)%N (str "Square") [PVariable (at_ 120) (str "s")]],
         [[PConstructor (0, 0)%N (str "Circle") [PVariable (at_ 130) (str "s")]]], None,
         BinOp MultInt (local "s" 120) (local "s" 120));
        ([PConstructor (0, 0)%N (str "Empty") []], [], None, Int 0)])] in
  let average := Function (str "average") [arg "x" 200; arg "y" 205]
    [Let (PVariable (at_ 210) (str "total")) (Call (other "add" 2) [local "x" 200; local "y" 205]);
     Let (PVariable (at_ 220) (str "total")) (Call (own "double" 1) [local "total" 210]);
     LetAssert_ (PConstructor (231, 240)%N (str "Ok") [PVariable (at_ 235) (str "count")])
       (Call (other "count" 0) []) 260%N None (230, 240)%N;
     Expression_ (Pipeline [(str "_pipe", at_ 270, Call (other "log" 1) [String_ (str "count")])]
                    (Call (other "log" 1) [local "_pipe" 270]));
     Expression_ (BinOp DivInt (local "total" 220) (local "count" 235))] in
  Module_ (str "m") (str "src/m.gleam") false [str " Shapes."]
    [(Public, CFunction (str "double") (str "m") (str "double") None)]
    [CustomType (str "Shape") [(str "Circle", [int_]); (str "Square", [int_]); (str "Empty", [])] false [] None]
    [ModuleFunction area 90 [shape] int_ Public (Some (str " Of a shape.")) None true;
     ModuleFunction average 190 [int_; int_] int_ Public None None true;
     int_function "double" [arg "x" 300] [Expression_ (BinOp MultInt (local "x" 300) (Int 2))] Private 290;
     int_function "unused" [arg "x" 400] [Expression_ (local "x" 400)] Private 390;
     ModuleFunction (Function (str "sum") [arg "l" 500] []) 490 [list_] int_ Public None
       (Some (str "lists", str "sum")) true;
     ModuleFunction (Function (str "greatest") [arg "l" 600] []) 590 [list_] int_ Private None
       (Some (str "lists", str "max")) true]
    [390%N].
Definition shapes_lines : N -> N := fun n => (n / 10)%N.

Definition shapes_text : text := text_lines
  ["-module(m).";
   "-compile([no_auto_import, nowarn_ignored, nowarn_unused_vars, nowarn_unused_function, nowarn_nomatch, inline]).";
   "-export([area/1, average/2, double/1, sum/1]).";
   "-export_type([shape/0]).";
   "-moduledoc(~"" Shapes."").";
   "";
   "-type shape() :: {circle, integer()} | {square, integer()} | empty.";
   "";
   "-file(""src/m.gleam"", 9).";
   "-spec area(shape()) -> integer().";
   "-doc(~"" Of a shape."").";
   "area(Shape) ->";
   "    case Shape of";
   "        {circle, R} when R > 0 ->";
   "            3 * (R * R);";
   "";
   "        {square, S} ->";
   "            S * S;";
   "";
   "        {circle, S} ->";
   "            S * S;";
   "";
   "        empty ->";
   "            0";
   "    end.";
   "";
   "-file(""src/m.gleam"", 19).";
   "-spec average(integer(), integer()) -> integer().";
   "average(X, Y) ->";
   "    Total = app@other:add(X, Y),";
   "    Total@1 = double(Total),";
   "    case app@other:count() of";
   "        {ok, Count} ->";
   "            _pipe = app@other:log(~""count""),";
   "            app@other:log(_pipe),";
   "            case Count of";
   "                0 ->";
   "                    0;";
   "";
   "                _value ->";
   "                    Total@1 div _value";
   "            end;";
   "";
   "        _value@1 ->";
   "            erlang:error(#{";
   "                gleam_error => let_assert,";
   "                message => ~""Pattern match failed, no pattern matched the value."",";
   "                file => ~""src/m.gleam"",";
   "                module => ~""m"",";
   "                function => ~""average"",";
   "                line => 23,";
   "                value => _value@1,";
   "                start => 230,";
   "                'end' => 260,";
   "                pattern_start => 231,";
   "                pattern_end => 240";
   "            })";
   "    end.";
   "";
   "-file(""src/m.gleam"", 29).";
   "-spec double(integer()) -> integer().";
   "double(X) ->";
   "    X * 2.";
   "";
   "-file(""src/m.gleam"", 49).";
   "-spec sum(list(integer())) -> integer().";
   "sum(L) ->";
   "    lists:sum(L).";
   ""]%string.
Lemma int_proper : proper int_.
Proof. split; [exact I|]. intros _. left. split; [discriminate|reflexivity]. Qed.
(** For programs written out. *)
Ltac legal_program :=
  repeat first
    [ reflexivity | exact I | exact int_proper | discriminate | assumption
    | match goal with |- _ /\ _ => split end
    | match goal with |- legal_name _ => split end
    | match goal with |- literal_text _ => apply plain_literal end
    | match goal with |- NoDup _ => constructor end
    | match goal with |- Forall _ _ => constructor end
    | match goal with |- fresh _ _ => split end
    | match goal with |- ~ In _ _ => let H := fresh in intro H; repeat destruct H as [H|H]; solve [discriminate H | destruct H] end
    | match goal with |- ~ (_ /\ _) => intros [? _] end
    | match goal with |- _ = true -> settled _ = true \/ _ => left end
    | progress unfold legal_fn, legal_function, legal_call, legal_clause, legal_variable, legal_foreign
    | progress cbn ].
Example C70_generated_code_does_what_gleam_does_example : legal_module shapes /\
  generated_module shapes shapes_lines = Some shapes_text.
Proof.
  split; [|vm_compute; reflexivity].
  split; [reflexivity|]. split; [intro I; vm_compute in I; repeat destruct I as [I|I]; discriminate || destruct I|].
  split.
  { constructor; [|constructor]. split.
    - split; [reflexivity|]. split; [|exact I]. intros n l [E|[E|[E|[]]]]; injection E as <- <-; split; try reflexivity; cbn; repeat split; reflexivity.
    - exists []. split; [reflexivity|]. split; [constructor|].
      intros n l t [E|[E|[E|[]]]]; injection E as <- <-; intros [<-|[]] || intros []; (split; [exact int_proper|]; cbn; intros x H; destruct H; reflexivity). }
  split; [legal_program|].
  intros f H.
  destruct H as [<-|[<-|[<-|[<-|[<-|[<-|[]]]]]]]; (split; [reflexivity|intros (_ & NU & NE)]).
  - legal_program.
  - legal_program; left; reflexivity.
  - legal_program.
  - exfalso. apply NU. left. reflexivity.
  - legal_program. intros _. right. left. split; reflexivity.
  - destruct NE as [NE|NE]; [discriminate NE|destruct NE; reflexivity].
Qed.

(** ** Running a module *)

(** The functions of other modules all give 1. *)
Definition gleam_ones (h : past) (f : foreign) (vs : list value) : option value := Some (DInt 1).
Definition erlang_ones (h : history) (m f : text) (us : list term) : option term := Some (VInt 1).
Lemma same_ones : same_world gleam_ones erlang_ones.
Proof. intros h h' f vs ts v _ _ [= <-] _. exists (VInt 1). split; [reflexivity|constructor]. Qed.

Lemma ends_once {A} (run : nat -> outcome A) r r' : ends run r -> ends run r' -> r = r'.
Proof.
  intros (n & E) (n' & E'). specialize (E (n + n') ltac:(lia)). specialize (E' (n + n') ltac:(lia)). congruence.
Qed.
Lemma calls_once forms world h f us r r' : calls_to forms world h f us r -> calls_to forms world h f us r' -> r = r'.
Proof. apply ends_once. Qed.
(** Erlang reads the text as the forms given. *)
Ltac read_back :=
  eexists; split; [vm_compute; reflexivity|]; exists 90; intros n L; replace n with (90 + (n - 90)) by lia;
  generalize (n - 90); clear; intro n; vm_compute; reflexivity.
(** The call ends so. *)
Ltac run_call :=
  exists 60; intros n L; replace n with (60 + (n - 60)) by lia; generalize (n - 60); clear; intro n; vm_compute; reflexivity.

(** The average of two numbers in Gleam; other.count gives Ok(2), and then Error("none"). *)
Definition gleam_other (answer : value) (h : past) (f : foreign) (vs : list value) : option value :=
  match f, vs with
  | InGleam _ name, [DInt x; DInt y] => if text_eqb name (str "add") then Some (DInt (x + y)) else None
  | InGleam _ name, [] => if text_eqb name (str "count") then Some answer else None
  | InGleam _ name, [DString s] => if text_eqb name (str "log") then Some (DString s) else None
  | _, _ => None
  end.
Definition erlang_other (answer : term) (h : history) (m f : text) (us : list term) : option term :=
  match us with
  | [VInt x; VInt y] => if text_eqb f (str "add") then Some (VInt (x + y)) else None
  | [] => if text_eqb f (str "count") then Some answer else None
  | [VBinary s] => if text_eqb f (str "log") then Some (VBinary s) else None
  | _ => None
  end.
Definition called (f : string) : foreign := InGleam (str "app/other") (str f).
Example C70_generated_code_does_what_gleam_does_example_runs :
  let run answer := applied (str "m") shapes_lines (gleam_functions shapes) (gleam_other answer) 40 []
                      (DFunction (str "average") 2) [DInt 3; DInt 5] in
  run (DRecord (str "Ok") [DInt 3]) =
    Some ([(called "log", [DString (str "count")]); (called "log", [DString (str "count")]);
           (called "count", []); (called "add", [DInt 3; DInt 5])], inl (DInt 5)) /\
  run (DRecord (str "Error") [DNil]) =
    Some ([(called "count", []); (called "add", [DInt 3; DInt 5])],
          inr (Failed LetAssert (DString (str "Pattern match failed, no pattern matched the value."))
                 (str "average") 23
                 (Some (DRecord (str "Error") [DNil], (230, 260)%N, (231, 240)%N)))) /\
  exists forms, reads shapes_text forms /\
    calls_to forms (erlang_other (VTuple [VAtom (str "ok"); VInt 3])) [] (str "average") [VInt 3; VInt 5]
      ([(str "app@other", str "log", [VBinary (str "count")]); (str "app@other", str "log", [VBinary (str "count")]);
        (str "app@other", str "count", []); (str "app@other", str "add", [VInt 3; VInt 5])], inl (VInt 5)).
Proof.
  split; [vm_compute; reflexivity|]. split; [vm_compute; reflexivity|].
  eexists. split; [read_back|run_call].
Qed.
Example C71_forms_of_a_module_example : exists forms, reads shapes_text forms /\
  In (attribute "export" (exported_meaning
        [(str "area", 1%N); (str "average", 2%N); (str "double", 1%N); (str "sum", 1%N)])) forms /\
  In (attribute "moduledoc" (EBinary (str " Shapes."))) forms /\
  flat_map (fun f => match f with FFunction name _ _ => [name] | _ => [] end) forms =
    [str "area"; str "average"; str "double"; str "sum"].
Proof. eexists. split; [read_back|]. split; [vm_compute; tauto|]. split; [vm_compute; tauto|vm_compute; reflexivity]. Qed.

(** What is divided is evaluated after what it is divided by, or not at all, though both call
    functions: <<pub fn f() { { other.g() * 2 } / other.h() }>>. *)
Definition operands : module :=
  int_module [] [int_function "f" []
    [Expression_ (BinOp DivInt (Block [Expression_ (BinOp MultInt (Call (other "g" 0) []) (Int 2))])
                    (Call (other "h" 0) []))] Public 0] [].
(** The text of a module of which [f] is the first to be exported. *)
Definition exporting_text (l : list string) : text :=
  text_lines ("-module(m)."%string ::
    "-compile([no_auto_import, nowarn_ignored, nowarn_unused_vars, nowarn_unused_function, nowarn_nomatch, inline])."%string :: l).
Theorem C70_generated_code_does_what_gleam_does_refuted_by_division :
  exists t forms, generated_module operands no_lines = Some t /\
    t = exporting_text
      ["-export([f/0])."; ""; "-file(""src/m.gleam"", 1)."; "-spec f() -> integer()."; "f() ->";
       "    case app@other:h() of"; "        0 ->"; "            0;"; "";
       "        _value ->"; "            (app@other:g() * 2) div _value"; "    end."; ""]%string /\
    reads t forms /\ ~ acts_as_gleam operands no_lines forms.
Proof.
  eexists. eexists. split; [vm_compute; reflexivity|]. split; [vm_compute; reflexivity|]. split; [read_back|]. intro H.
  specialize (H gleam_ones erlang_ones 20 [] [] (str "f") [] [] ([(InGleam (str "app/other") (str "h"), []); (InGleam (str "app/other") (str "g"), [])], inl (DInt 2)) same_ones (Forall2_nil _) (Forall2_nil _) eq_refl).
  cbn [fst snd] in H. destruct H as (eh & P & u & _ & C).
  assert (C' := calls_once _ _ _ _ _ _ ([(str "app@other", str "g", []); (str "app@other", str "h", [])], inl (VInt 2)) C ltac:(run_call)).
  injection C' as -> _. inversion P as [|? ? ? ? X]. destruct X as (_ & X & _). discriminate X.
Qed.
Print Assumptions C70_generated_code_does_what_gleam_does_refuted_by_division.

(** Division by zero is zero, but not in guards, where it is that the guard fails:
    <<pub fn f(x) { case x { y if 1 / y == 0 -> 1  _ -> 2 } }>>. *)
Definition guards : module :=
  int_module [] [int_function "f" [arg "x" 10]
    [Expression_ (Case [local "x" 10]
       [([PVariable (at_ 20) (str "y")], [],
         Some (GuardBinaryOperator Eq_
                 (GuardBinaryOperator DivInt (GuardInt 1) (GuardVar (str "y") (at_ 20))) (GuardInt 0)),
         Int 1);
        ([PDiscard (at_ 30)], [], None, Int 2)])] Public 0] [].
Theorem C70_generated_code_does_what_gleam_does_refuted_by_guards :
  exists t forms, generated_module guards no_lines = Some t /\
    t = exporting_text
      ["-export([f/1])."; ""; "-file(""src/m.gleam"", 1)."; "-spec f(integer()) -> integer()."; "f(X) ->";
       "    case X of"; "        Y when (1 div Y) =:= 0 ->"; "            1;"; "";
       "        _ ->"; "            2"; "    end."; ""]%string /\
    reads t forms /\ ~ acts_as_gleam guards no_lines forms.
Proof.
  eexists. eexists. split; [vm_compute; reflexivity|]. split; [vm_compute; reflexivity|]. split; [read_back|]. intro H.
  specialize (H gleam_ones erlang_ones 20 [] [] (str "f") [DInt 0] [VInt 0] ([], inl (DInt 1)) same_ones ltac:(repeat constructor) (Forall2_nil _) eq_refl).
  cbn [fst snd] in H. destruct H as (eh & P & u & R & C). specialize (R eq_refl). inversion R; subst u.
  assert (C' := calls_once _ _ _ _ _ _ ([], inl (VInt 2)) C ltac:(run_call)). discriminate C'.
Qed.
Print Assumptions C70_generated_code_does_what_gleam_does_refuted_by_guards.

(** A string that is joined is not one of bytes if it is a literal, which the alias of a prefix in a
    guard is, and a literal in braces:
    <<pub fn f(x) { case x { "a" as p <> _ if p <> "b" == "ab" -> 1  _ -> 2 } }>> and
    <<pub fn f() { { "a" } <> "b" }>>. *)
Definition prefixes : module :=
  int_module [] [ModuleFunction (Function (str "f") [arg "x" 10]
    [Expression_ (Case [local "x" 10]
       [([PStringPrefix (at_ 15) (str "a") (Some (str "p", at_ 20)) None (at_ 25)], [],
         Some (GuardBinaryOperator Eq_
                 (GuardBinaryOperator Concatenate (GuardVar (str "p") (at_ 20)) (GuardString (str "b")))
                 (GuardString (str "ab"))),
         Int 1);
        ([PDiscard (at_ 30)], [], None, Int 2)])])
    0 [GNamed (str "gleam") (str "String") []] int_ Public None None true] [].
Theorem C70_generated_code_does_what_gleam_does_refuted_by_prefixes :
  exists t forms, generated_module prefixes no_lines = Some t /\
    t = exporting_text
      ["-export([f/1])."; ""; "-file(""src/m.gleam"", 1)."; "-spec f(binary()) -> integer()."; "f(X) ->";
       "    case X of"; "        <<""a""/utf8, _/binary>> when <<""a""/binary, ""b""/utf8>> =:= ~""ab"" ->";
       "            P = ~""a"","; "            1;"; "";
       "        _ ->"; "            2"; "    end."; ""]%string /\
    reads t forms /\ ~ acts_as_gleam prefixes no_lines forms.
Proof.
  eexists. eexists. split; [vm_compute; reflexivity|]. split; [vm_compute; reflexivity|]. split; [read_back|]. intro H.
  specialize (H gleam_ones erlang_ones 20 [] [] (str "f") [DString (str "a")] [VBinary (str "a")] ([], inl (DInt 1)) same_ones ltac:(repeat constructor) (Forall2_nil _) eq_refl).
  cbn [fst snd] in H. destruct H as (eh & _ & u & _ & n0 & C). specialize (C (60 + n0) ltac:(lia)). clear - C. vm_compute in C. discriminate C.
Qed.
Print Assumptions C70_generated_code_does_what_gleam_does_refuted_by_prefixes.
Definition braces : module :=
  int_module [] [ModuleFunction (Function (str "f") []
    [Expression_ (BinOp Concatenate (Block [Expression_ (String_ (str "a"))]) (String_ (str "b")))])
    0 [] (GNamed (str "gleam") (str "String") []) Public None None true] [].
Theorem C70_generated_code_does_what_gleam_does_refuted_by_braces :
  exists t forms, generated_module braces no_lines = Some t /\
    t = exporting_text
      ["-export([f/0])."; ""; "-file(""src/m.gleam"", 1)."; "-spec f() -> binary()."; "f() ->";
       "    <<""a""/binary, ""b""/utf8>>."; ""]%string /\
    reads t forms /\ ~ acts_as_gleam braces no_lines forms.
Proof.
  eexists. eexists. split; [vm_compute; reflexivity|]. split; [vm_compute; reflexivity|]. split; [read_back|]. intro H.
  specialize (H gleam_ones erlang_ones 20 [] [] (str "f") [] [] ([], inl (DString (str "ab"))) same_ones ltac:(repeat constructor) (Forall2_nil _) eq_refl).
  cbn [fst snd] in H. destruct H as (eh & _ & u & _ & n0 & C). specialize (C (60 + n0) ltac:(lia)). clear - C. vm_compute in C. discriminate C.
Qed.
Print Assumptions C70_generated_code_does_what_gleam_does_refuted_by_braces.

(** An external function called [module_info] is called by another name:
    <<@external(erlang, "lists", "module_info") fn info() -> Int>> and <<pub fn f() { info() }>>. *)
Definition informs : module :=
  int_module [] [int_function "f" []
    [Expression_ (Call (Var (str "info") (ModuleFn (str "m") (str "info") 0 (Some (str "lists", str "module_info")) false)) [])]
    Public 0] [].
Theorem C70_generated_code_does_what_gleam_does_refuted_by_names :
  exists t forms, generated_module informs no_lines = Some t /\
    t = exporting_text
      ["-export([f/0])."; ""; "-file(""src/m.gleam"", 1)."; "-spec f() -> integer()."; "f() ->";
       "    lists:'moduleInfo'()."; ""]%string /\
    reads t forms /\ ~ acts_as_gleam informs no_lines forms.
Proof.
  eexists. eexists. split; [vm_compute; reflexivity|]. split; [vm_compute; reflexivity|]. split; [read_back|]. intro H.
  specialize (H gleam_ones erlang_ones 20 [] [] (str "f") [] [] ([(InErlang (str "lists") (str "module_info"), [])], inl (DInt 1)) same_ones ltac:(repeat constructor) (Forall2_nil _) eq_refl).
  cbn [fst snd] in H. destruct H as (eh & P & u & _ & C).
  assert (C' := calls_once _ _ _ _ _ _ ([(str "lists", str "moduleInfo", [])], inl (VInt 1)) C ltac:(run_call)).
  injection C' as -> _. inversion P as [|? ? ? ? X]. destruct X as (_ & X & _). discriminate X.
Qed.
Print Assumptions C70_generated_code_does_what_gleam_does_refuted_by_names.

(** ** Exports *)

(** A private function of another language has no code, but its name is exported when a constant has
    it: <<@external(erlang, "lists", "max") fn greatest(l: Int) -> Int>> and
    <<pub const best = greatest>>. *)
Definition constants_of (f : module_fn) : module :=
  int_module [(Public, CFunction (name_of f) (str "m") (name_of f) (mf_external f))] [f] [].
Definition externals : module := constants_of
  (ModuleFunction (Function (str "greatest") [arg "l" 600] []) 590 [int_] int_ Private None
    (Some (str "lists", str "max")) true).
Definition exported_only : list string :=
  ["-export([greatest/1])."; ""]%string.
Theorem C72_exported_functions_are_defined_refuted_by_externals :
  exists t forms, generated_module externals no_lines = Some t /\
    t = exporting_text exported_only /\ reads t forms /\ legal_module externals /\
    exports forms (str "greatest") 1 /\ ~ defines forms (str "greatest") 1.
Proof.
  eexists. eexists. split; [vm_compute; reflexivity|]. split; [vm_compute; reflexivity|]. split; [read_back|]. split.
  { split; [reflexivity|]. split; [intro I; vm_compute in I; repeat destruct I as [I|I]; discriminate || destruct I|].
    split; [constructor|]. split; [legal_program|]. intros f [<-|[]]. split; [reflexivity|]. intros (_ & _ & [NE|NE]); [discriminate NE|destruct NE; reflexivity]. }
  split.
  - exists [(str "greatest", 1%N)]. split; [vm_compute; tauto|left; reflexivity].
  - intros (ps & body & I & _). vm_compute in I. repeat destruct I as [I|I]; discriminate || destruct I.
Qed.
Print Assumptions C72_exported_functions_are_defined_refuted_by_externals.
(** And so is that of a private function that is not used, when the constant has a function of another
    module that has the same name: <<pub const best = other.greatest>> and
    <<fn greatest(l) { l }>>. *)
Definition namesakes : module :=
  int_module [(Public, CFunction (str "greatest") (str "other") (str "greatest") None)]
    [int_function "greatest" [arg "l" 600] [Expression_ (local "l" 600)] Private 590] [590%N].
Theorem C72_exported_functions_are_defined_refuted_by_namesakes :
  exists t forms, generated_module namesakes no_lines = Some t /\
    t = exporting_text exported_only /\ reads t forms /\ legal_module namesakes /\
    exports forms (str "greatest") 1 /\ ~ defines forms (str "greatest") 1.
Proof.
  eexists. eexists. split; [vm_compute; reflexivity|]. split; [vm_compute; reflexivity|]. split; [read_back|]. split.
  { split; [reflexivity|]. split; [intro I; vm_compute in I; repeat destruct I as [I|I]; discriminate || destruct I|].
    split; [constructor|]. split; [legal_program|]. intros f [<-|[]]. split; [reflexivity|]. intros (_ & NU & _). destruct NU. left. reflexivity. }
  split.
  - exists [(str "greatest", 1%N)]. split; [vm_compute; tauto|left; reflexivity].
  - intros (ps & body & I & _). vm_compute in I. repeat destruct I as [I|I]; discriminate || destruct I.
Qed.
Print Assumptions C72_exported_functions_are_defined_refuted_by_namesakes.
Example C72_exported_functions_are_defined_example :
  (forall f, In f (m_functions shapes) -> mf_publicity f <> Private -> ~ In (mf_start f) (m_unused shapes)) /\
  (forall f, In f (m_functions shapes) -> mf_publicity f = Private -> writes shapes (name_of f) ->
     ~ In (mf_start f) (m_unused shapes) /\ mf_external f = None) /\
  writes shapes (str "double").
Proof.
  split; [|split].
  - intros f [<-|[<-|[<-|[<-|[<-|[<-|[]]]]]]] P; try (destruct P; reflexivity); intros [E|[]]; discriminate E.
  - intros f H _ (p & c & [[= <- <-]|[]] & _ & [(m & g & e & M)|(d & M)]); [|inversion M]. remember (name_of f) as n. inversion M. subst n.
    destruct H as [<-|[<-|[<-|[<-|[<-|[<-|[]]]]]]]; try discriminate. split; [|reflexivity]. intros [E|[]]. discriminate E.
  - exists Public, (CFunction (str "double") (str "m") (str "double") None). split; [left; reflexivity|]. split; [discriminate|]. left.
    exists (str "m"), (str "double"), None. constructor.
Qed.

(** The functions of a constant that another constant has are not exported:
    <<fn double(x) { x * 2 }>>, <<const twice = double>> and <<pub const scale = twice>>. *)
Definition renamed : module :=
  int_module [(Private, CFunction (str "double") (str "m") (str "double") None);
              (Public, CConstant (str "twice") true (CFunction (str "double") (str "m") (str "double") None))]
    [int_function "double" [arg "x" 300] [Expression_ (BinOp MultInt (local "x" 300) (Int 2))] Private 290] [].
Theorem C73_functions_of_constants_are_exported_refuted :
  exists p c t forms, In (p, c) (m_constants renamed) /\ p <> Private /\
    refers_to c (str "m", str "double") /\ legal_module renamed /\
    generated_module renamed no_lines = Some t /\ reads t forms /\ ~ exports forms (str "double") 1.
Proof.
  eexists. eexists. eexists. eexists. split; [right; left; reflexivity|]. split; [discriminate|].
  split; [eapply refers_constant; [constructor|]; eapply refers_function; constructor|]. split.
  { split; [reflexivity|]. split; [intro I; vm_compute in I; repeat destruct I as [I|I]; discriminate || destruct I|].
    split; [constructor|]. split; [legal_program|]. intros f [<-|[]]. split; [reflexivity|]. intros _. legal_program. }
  split; [vm_compute; reflexivity|]. split; [read_back|].
  intros (l & I & J). destruct l as [|[f a] l]; [destruct J|]. vm_compute in I. repeat destruct I as [I|I]; discriminate || destruct I.
Qed.
Print Assumptions C73_functions_of_constants_are_exported_refuted.
Example C73_functions_of_constants_are_exported_example :
  let c := CFunction (str "double") (str "m") (str "double") None in
  In (Public, c) (m_constants shapes) /\ refers_to c (m_name shapes, str "double") /\
  (forall n b d, ~ mentions c (CConstant n b d)) /\
  exists forms, reads shapes_text forms /\ exports forms (str "double") 1.
Proof.
  split; [left; reflexivity|]. split; [eapply refers_function; constructor|]. split; [intros n b d M; inversion M|].
  eexists. split; [read_back|]. exists [(str "area", 1%N); (str "average", 2%N); (str "double", 1%N); (str "sum", 1%N)].
  split; [vm_compute; tauto|]. right. right. left. reflexivity.
Qed.

(** <<sum>> of the module above. *)
Example C74_external_functions_pass_arguments_on_example : exists forms, reads shapes_text forms /\
  calls_to forms (fun _ _ _ _ => Some (VInt 6)) [] (str "sum") [VCons (VInt 6) VNil]
    ([(str "lists", str "sum", [VCons (VInt 6) VNil])], inl (VInt 6)).
Proof. eexists. split; [read_back|run_call]. Qed.
