(** The end-to-end test harness: comparing traces, running tests, reporting and the exit code.

    Sources under /repo/projects/pt1: rep = python/torch_mlir_e2e_test/reporting.py,
    fwk = python/torch_mlir_e2e_test/framework.py, reg = python/torch_mlir_e2e_test/registry.py,
    main = e2e_testing/main.py. Processes and signals are left out: each step of a test says how it ended.
    [None] is an exception that leaves the function. Messages are left out except for where they point.
    Finite floats are rational numbers, so rounding is left out. *)
From Coq Require Import ZArith QArith Qabs Bool Ascii String List.
From Verif Require Import Prelude OnnxModel.
Import ListNotations.
Open Scope string_scope.
Open Scope list_scope.
Open Scope nat_scope.

(** * Floats *)
Inductive fl := Fin (q : Q) | PInf | NInf | NaN.
Definition Qpos (q : Q) : bool := negb (Qle_bool q 0).
Definition fl_sub (a b : fl) : fl :=
  match a, b with
  | NaN, _ | _, NaN => NaN
  | Fin x, Fin y => Fin (x - y)
  | PInf, PInf | NInf, NInf => NaN
  | PInf, _ => PInf
  | NInf, _ => NInf
  | Fin _, PInf => NInf
  | Fin _, NInf => PInf
  end.
Definition fl_abs (a : fl) : fl := match a with Fin x => Fin (Qabs x) | NInf => PInf | _ => a end.
(** Dividing by zero raises ZeroDivisionError. *)
Definition fl_div (a b : fl) : option fl :=
  match b with
  | Fin y =>
      if Qeq_bool y 0 then None
      else Some (match a with Fin x => Fin (x / y) | NaN => NaN | PInf => if Qpos y then PInf else NInf | NInf => if Qpos y then NInf else PInf end)
  | NaN => Some NaN
  | PInf | NInf => Some (match a with Fin _ => Fin 0 | _ => NaN end)
  end.
(** [a > q]: false for NaN. *)
Definition fl_gt (a : fl) (q : Q) : bool := match a with Fin x => negb (Qle_bool x q) | PInf => true | NInf | NaN => false end.
(** One element of torch.isclose(value, golden, rtol, atol, equal_nan=True) *)
Definition isclose (rtol atol : Q) (v g : fl) : bool :=
  match v, g with
  | NaN, NaN | PInf, PInf | NInf, NInf => true
  | Fin x, Fin y => Qle_bool (Qabs (x - y)) (atol + Qabs (rtol * y))
  | _, _ => false
  end.

(** * Values, fwk l.41-48. Elements of a tensor are numbered from 0 in row-major order. *)
Record tensor := { t_shape : list nat; t_dtype : string; t_elem : nat -> fl }.
Definition numel (shape : list nat) : nat := fold_right Nat.mul 1 shape.
(** [VOther] is a value of any other type, such as None. Keys of dictionaries are strings. *)
Inductive value :=
| VFloat (f : fl) | VInt (z : Z) | VBool (b : bool) | VStr (s : string)
| VTuple (l : list value) | VList (l : list value) | VDict (l : list (string * value)) | VTensor (t : tensor) | VOther.
Record trace_item := { symbol : string; inputs : list value; output : value }.
Definition trace := list trace_item.

(** * ValueReport, rep l.59-187 *)
(** ErrorContext, rep l.34-56: where we are. *)
Inductive step := TupleElement (i : nat) | ListElement (i : nat) | DictElement (k : string) | Input (i : nat) | Output | Item (i : nat).
Inductive kind := WrongType | NotClose | NotEqual | WrongLength | WrongKeys | WrongShape | WrongDtype | UnexpectedGolden | WrongSymbol | WrongInputCount.
Definition reason := (list step * kind)%type.
(** rep l.78-81 *)
Definition peel (v : value) : value := match v with VTuple [x] => x | _ => v end.
(** [isinstance(v, int)], which holds of booleans *)
Definition as_int (v : value) : option Z := match v with VInt z => Some z | VBool b => Some (if b then 1 else 0)%Z | _ => None end.
Definition list_nat_eqb (a b : list nat) : bool := if list_eq_dec Nat.eq_dec a b then true else false.
Definition list_string_eqb (a b : list string) : bool := if list_eq_dec string_dec a b then true else false.
(** torch.allclose of tensors of one shape, rep l.169-171 *)
Definition allclose (rtol atol : Q) (v g : tensor) : bool := forallb (fun i => isclose rtol atol (t_elem v i) (t_elem g i)) (seq 0 (numel (t_shape g))).
Definition float_tolerance : Q := 1 # 10000.
Definition rtol : Q := 1 # 1000.
Definition atol : Q := 1 # 10000000.
(** The loops over elements, rep l.113-120, l.128-135 and l.145-155: [f] makes the report of one element. *)
Fixpoint elements (reports : list (value -> option (list reason))) (vs : list value) : option (list reason) :=
  match reports, vs with
  | f :: fs, v :: vs => do a <- f v; do b <- elements fs vs; Some (a ++ b)
  | _, _ => Some []
  end.
Fixpoint keyed (reports : list (string * (value -> option (list reason)))) (vs : list (string * value)) (ks : list string) : option (list reason) :=
  match ks with
  | [] => Some []
  | k :: r => do v <- lookup vs k; do f <- lookup reports k; do a <- f v; do b <- keyed reports vs r; Some (a ++ b)
  end.
(** _evaluate_outcome after peeling, rep l.82-178 *)
Fixpoint evaluate (golden : value) (ctx : list step) (v : value) {struct golden} : option (list reason) :=
  match golden with
  | VFloat g =>
      match v with
      | VFloat x => do r <- fl_div (fl_abs (fl_sub x g)) g; Some (if fl_gt r float_tolerance then [(ctx, NotClose)] else [])
      | _ => Some [(ctx, WrongType)]
      end
  | VInt _ | VBool _ =>
      match as_int v, as_int golden with
      | Some x, Some g => Some (if (x =? g)%Z then [] else [(ctx, NotEqual)])
      | _, _ => Some [(ctx, WrongType)]
      end
  | VStr g => match v with VStr x => Some (if String.eqb x g then [] else [(ctx, NotEqual)]) | _ => Some [(ctx, WrongType)] end
  | VTuple gs =>
      match v with
      | VTuple vs =>
          if negb (length vs =? length gs) then Some [(ctx, WrongLength)]
          else elements ((fix go i l := match l with [] => [] | g :: r => (fun x => evaluate (match g with VTuple [y] => y | _ => g end) (ctx ++ [TupleElement i]) (peel x)) :: go (S i) r end) 0 gs) vs
      | _ => Some [(ctx, WrongType)]
      end
  | VList gs =>
      match v with
      | VList vs =>
          if negb (length vs =? length gs) then Some [(ctx, WrongLength)]
          else elements ((fix go i l := match l with [] => [] | g :: r => (fun x => evaluate (match g with VTuple [y] => y | _ => g end) (ctx ++ [ListElement i]) (peel x)) :: go (S i) r end) 0 gs) vs
      | _ => Some [(ctx, WrongType)]
      end
  | VDict gs =>
      match v with
      | VDict vs =>
          let gkeys := sort_keys (map fst gs) in
          if negb (list_string_eqb gkeys (sort_keys (map fst vs))) then Some [(ctx, WrongKeys)]
          else keyed (map (fun p => (fst p, fun x => evaluate (match snd p with VTuple [y] => y | _ => snd p end) (ctx ++ [DictElement (fst p)]) (peel x))) gs) vs gkeys
      | _ => Some [(ctx, WrongType)]
      end
  | VTensor g =>
      match v with
      | VTensor t =>
          if negb (list_nat_eqb (t_shape t) (t_shape g)) then Some [(ctx, WrongShape)]
          else if negb (String.eqb (t_dtype t) (t_dtype g)) then Some [(ctx, WrongDtype)]
          else if negb (allclose rtol atol t g) then Some [(ctx, NotClose)]
          else Some []
      | _ => Some [(ctx, WrongType)]
      end
  | VOther => Some [(ctx, UnexpectedGolden)]
  end.
(** ValueReport(value, golden_value, context).failure_reasons *)
Definition value_report (v golden : value) (ctx : list step) : option (list reason) := evaluate (peel golden) ctx (peel v).
(** TraceItemReport._evaluate_outcome, rep l.208-237. A message with several lines is kept as several reasons. *)
Fixpoint input_reports (i : nat) (ins gins : list value) (ctx : list step) : option (list reason) :=
  match ins, gins with
  | v :: ins, g :: gins => do a <- value_report v g (ctx ++ [Input i]); do b <- input_reports (S i) ins gins ctx; Some (a ++ b)
  | _, _ => Some []
  end.
Definition item_report (it golden : trace_item) (ctx : list step) : option (list reason) :=
  let s := if negb (String.eqb (symbol it) (symbol golden)) then [(ctx, WrongSymbol)] else [] in
  let n := if negb (length (inputs it) =? length (inputs golden)) then [(ctx, WrongInputCount)] else [] in
  do i <- input_reports 0 (inputs it) (inputs golden) ctx;
  do o <- value_report (output it) (output golden) (ctx ++ [Output]);
  Some (s ++ n ++ i ++ o).

(** * Results *)
(** TestResult, fwk l.237-261 *)
Record test_result := { r_name : string; compilation_error : bool; runtime_error : bool; r_trace : option trace; r_golden : option trace }.
(** SingleTestReport.__init__, rep l.245-260 *)
Fixpoint item_reports (i : nat) (t g : trace) : option (list (list reason)) :=
  match t, g with
  | x :: t, y :: g => do a <- item_report x y [Item i]; do b <- item_reports (S i) t g; Some (a :: b)
  | _, _ => Some []
  end.
(** SingleTestReport and failed, rep l.262-268. *)
Definition failed (r : test_result) : option bool :=
  if compilation_error r || runtime_error r then Some true
  else
    do t <- r_trace r; do g <- r_golden r;
    do reports <- item_reports 0 t g;
    Some (existsb (fun l => negb (length l =? 0)) reports).
Inductive outcome := PASS | FAIL | XFAIL | XPASS.
Definition outcome_eqb (a b : outcome) : bool := match a, b with PASS, PASS | FAIL, FAIL | XFAIL, XFAIL | XPASS, XPASS => true | _, _ => false end.
Definition mem (k : string) (l : list string) : bool := existsb (String.eqb k) l.
(** report_results, rep l.307-334: the outcome of each result. *)
Definition outcome_of (expected_failures : list string) (r : test_result) : option outcome :=
  do f <- failed r;
  Some (if mem (r_name r) expected_failures then if f then XFAIL else XPASS else if negb f then PASS else FAIL).
Definition report_results (results : list test_result) (expected_failures : list string) : option (list outcome * bool) :=
  do l <- mapM (outcome_of expected_failures) results;
  let count := fun o => length (filter (outcome_eqb o) l) in
  Some (l, negb (count FAIL =? 0) || negb (count XPASS =? 0)).

(** * Running, fwk l.326-466 *)
(** How a step ended. *)
Inductive ended (A : Type) := Done (a : A) | TimedOut | Raised.
Arguments Done {A}. Arguments TimedOut {A}. Arguments Raised {A}.
(** clone_torch_script_value, fwk l.74-89: a copy, or an assertion failure. *)
Fixpoint cloneable (v : value) : bool :=
  match v with
  | VTuple l | VList l => forallb cloneable l
  | VDict l => forallb (fun p => cloneable (snd p)) l
  | VOther => false
  | _ => true
  end.
(** clone_trace, fwk l.98-106. A copy is equal. *)
Definition clone_trace (t : trace) : option trace :=
  if forallb (fun i => forallb cloneable (inputs i) && cloneable (output i)) t then Some t else None.
(** A test: its name and how its golden run, compilation and run end. *)
Record test := { t_name : string; golden_run : ended trace; compile : ended unit; run : trace -> ended trace }.
(** compile_and_run_test, fwk l.326-382. *)
Definition compile_and_run_test (t : test) : option test_result :=
  match golden_run t, compile t with
  | Done golden, Done _ =>
      match run t golden with
      | Done tr => do a <- clone_trace tr; do b <- clone_trace golden;
          Some {| r_name := t_name t; compilation_error := false; runtime_error := false; r_trace := Some a; r_golden := Some b |}
      | _ => Some {| r_name := t_name t; compilation_error := false; runtime_error := true; r_trace := None; r_golden := None |}
      end
  | _, _ => Some {| r_name := t_name t; compilation_error := true; runtime_error := false; r_trace := None; r_golden := None |}
  end.
(** [sorted(tests, key=lambda t: t.unique_name)] *)
Fixpoint insert_by {A} (key : A -> string) (x : A) (l : list A) : list A :=
  match l with [] => [x] | y :: r => if String.leb (key x) (key y) then x :: l else y :: insert_by key x r end.
Definition sort_by {A} (key : A -> string) (l : list A) : list A := fold_right (insert_by key) [] l.
Definition aborted (name : string) : test_result := {| r_name := name; compilation_error := false; runtime_error := true; r_trace := None; r_golden := None |}.
Fixpoint distinct (l : list string) : list string := match l with [] => [] | x :: r => if mem x r then distinct r else x :: distinct r end.
(** run_tests, fwk l.385-466, with all of them in the pool. [pool] is what the pool returns for the sorted tests: [None] if it raises or a
    process exits with another code than zero. *)
Definition run_tests (pool : list test -> option (list test_result)) (tests : list test) : option (list test_result) :=
  let tests := sort_by t_name tests in
  do results <- pool tests;
  let with_results := map r_name results in
  let missing := filter (fun n => negb (mem n with_results)) (distinct (map t_name tests)) in
  Some (sort_by r_name (results ++ map aborted missing)).
(** A pool whose processes do not crash. *)
Definition healthy_pool (tests : list test) : option (list test_result) := mapM compile_and_run_test tests.

(** * Registration, reg l.18-46: [None] if the name was seen. *)
Definition register_test_case (registry : list test) (t : test) : option (list test) :=
  if mem (t_name t) (map t_name registry) then None else Some (registry ++ [t]).

(** * main, main l.204-241: the exit code. [matches] is the filter. *)
Definition main (registry : list test) (crashing not_attempted xfail : list string) (matches : string -> bool) (ignore_failures : bool)
    (pool : list test -> option (list test_result)) : Z :=
  let do_not_attempt := not_attempted ++ crashing in
  let available := filter (fun t => negb (mem (t_name t) do_not_attempt)) registry in
  if negb (forallb (fun a => mem a (map t_name registry)) not_attempted) then 1%Z
  else
    let tests := filter (fun t => matches (t_name t)) available in
    if length tests =? 0 then 1%Z
    else
      match run_tests pool tests with
      | None => 1%Z
      | Some results =>
          match report_results results xfail with
          | None => 1%Z (** an uncaught exception *)
          | Some (_, unexpected) => if ignore_failures then 0%Z else if unexpected then 1%Z else 0%Z
          end
      end.
