(** * C74: the texts of the errors are the format strings of the source *)
From Coq Require Import Ascii String ZArith Floats.SpecFloat.
From stdpp Require Import strings pretty.
From Verif Require Import ScalarF Geometry Joint ErrorM.
Local Open Scope string_scope.

(** a format string of Rust with holes [{}]: each hole takes the next argument; no text if the
    numbers of holes and arguments differ (the compiler refuses such a program) *)
Fixpoint filled (f : string) (args : list string) : option string :=
  match f with
  | String "{"%char (String "}"%char f) => match args with a :: args => append a <$> filled f args | [] => None end
  | String c f => String c <$> filled f args
  | EmptyString => match args with [] => Some EmptyString | _ => None end
  end.
(** errors.rs:23-81, the literals in [#[error(...)]] *)
Definition format_string (e : error spec_float) : string :=
  match e with
  | OutOfLimitError _ _ _ _ => "joint: {} is out of limit: {}, limit = {} <=> {}"
  | SetToFixedError _ => "joint {} is fixed joint but the position is set"
  | SizeMismatchError _ _ => "size mismatch input = {}, required = {}"
  | MimicError _ _ => "mimic error from {} to {}"
  | NotConvergedError _ _ _ => "ik solve not converged tried {} times, position diff = {}, rotation diff = {}"
  | InverseMatrixError => "inverse matrix error"
  | PreconditionError _ _ => "ik precondition error: input Dof={}, must be greater than {}"
  | InvalidJointNameError _ => "There is no valid joint named {}"
  end.
Section Args.
  Context (show : spec_float -> string) (show3 : vec3 spec_float -> string).
  (** the arguments after the literal, by the name of the field: [joint_name], [position],
      [max_limit], [min_limit], ... *)
  Definition arguments (e : error spec_float) : list string :=
    match e with
    | OutOfLimitError joint_name position max_limit min_limit => [joint_name; show position; show max_limit; show min_limit]
    | SetToFixedError joint_name => [joint_name]
    | SizeMismatchError input required => [pretty input; pretty required]
    | MimicError from to => [from; to]
    | NotConvergedError num_tried position_diff rotation_diff => [pretty num_tried; show3 position_diff; show3 rotation_diff]
    | InverseMatrixError => []
    | PreconditionError dof necessary_dof => [pretty dof; pretty necessary_dof]
    | InvalidJointNameError joint_name => [joint_name]
    end.
End Args.

Lemma app_nil_s (s : string) : s +:+ "" = s.
Proof. induction s as [|c s IH]; [reflexivity|]. change (String c (s +:+ "") = String c s). rewrite IH. reflexivity. Qed.
(** C74: every text is the format string of the source with its arguments filled in *)
Theorem C74_text show show3 e : filled (format_string e) (arguments show show3 e) = Some (error_text show show3 e).
Proof. destruct e; cbn; rewrite ?app_nil_s; reflexivity. Qed.
Print Assumptions C74_text.

Example C74_text_case show show3 : show (S754_zero false) = "0" ->
  error_text show show3 (OutOfLimitError "a{}" (S754_zero false) (S754_zero false) (S754_zero false)) = "joint: a{} is out of limit: 0, limit = 0 <=> 0".
Proof. intros E. cbn. rewrite E. reflexivity. Qed.
