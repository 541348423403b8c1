(** * C74: errors report what went wrong *)
From Coq Require Import String Reals ZArith Lia Floats.SpecFloat.
From Flocq Require Import Core IEEE754.BinarySingleNaN.
From stdpp Require Import gmap strings pretty.
From Verif Require Import Scalar ScalarF Geometry Joint Link Prog NodeM ChainM IkM SpecValues SpecJoint SpecNode SpecGraph SpecChain SpecIk
  RangeProofs JointProofs ErrorM SpecError ErrorProofs ErrorIk Ex PropIk.

(** C74: the f64 numbers in an error are exactly the numbers of the f32 or f64 robot *)
Theorem C74_exact prec emax (Hp : Prec_gt_0 prec) (Hm : Prec_lt_emax prec emax) e :
  (prec <= 53)%Z -> (emax <= 1024)%Z -> valid_payload prec emax e -> same_report (reported e) e.
Proof.
  intros H1 H2 Hv.
  assert (W : forall x, valid_binary prec emax x = true -> same_value (SFconv 53 1024 x) x).
  { intros x Hx. apply (widen_value prec emax 53 1024); try assumption; reflexivity. }
  destruct e; cbn in *; auto.
  - destruct Hv as (? & ? & ?). auto.
  - destruct Hv as ((? & ? & ?) & ? & ? & ?). unfold same_values3. cbn. auto 10.
Qed.
Print Assumptions C74_exact.

(** C74: what the caller of [set_joint_position] on a robot with f32 (or f64) numbers reads in
    an [OutOfLimitError]: the name of the joint, the number they passed, the limits of
    the joint; and the number is not between the limits, also when compared as f64 *)
Theorem C74_out_of_limit prec emax (Hp : Prec_gt_0 prec) (Hm : Prec_lt_emax prec emax) (L : libm) (j : joint spec_float) p e :
  (prec <= 53)%Z -> (emax <= 1024)%Z -> valid_binary prec emax p = true ->
  (forall r, j_limits j = Some r -> valid_binary prec emax (rmin r) = true /\ valid_binary prec emax (rmax r) = true) ->
  snd (@joint_set _ (FScalar prec emax L) j p) = Err e ->
  (j_type j = Fixed /\ reported e = SetToFixedError (j_name j)) \/
  (movable j /\ exists r p' mx mn, j_limits j = Some r /\ reported e = OutOfLimitError (j_name j) p' mx mn /\
    same_value p' p /\ same_value mx (rmax r) /\ same_value mn (rmin r) /\
    ~ (val_le (sf_value mn) (sf_value p') /\ val_le (sf_value p') (sf_value mx))).
Proof.
  intros H1 H2 Vp Vl E. destruct (@set_joint_lemma _ (FScalar prec emax L) j p) as (_ & _ & H). cbv zeta in H. destruct (H e E) as [_ [[Hf ->]|(Hmv & r & Hr & Hn & ->)]].
  - left. auto.
  - right. split; [exact Hmv|]. destruct (Vl r Hr) as [Vmn Vmx].
    assert (W : forall x, valid_binary prec emax x = true -> same_value (SFconv 53 1024 x) x).
    { intros x Hx. apply (widen_value prec emax 53 1024); try assumption; reflexivity. }
    exists r, (SFconv 53 1024 p), (SFconv 53 1024 (rmax r)), (SFconv 53 1024 (rmin r)). split; [exact Hr|]. split; [reflexivity|].
    split; [apply W, Vp|]. split; [apply W, Vmx|]. split; [apply W, Vmn|]. rewrite (W _ Vp), (W _ Vmx), (W _ Vmn).
    intros [L1 L2]. apply Hn. split; apply (SFleb_value prec emax); assumption.
Qed.
Print Assumptions C74_out_of_limit.

(** C74: which errors the solver returns, and what they contain (hypotheses as in C32).
    [NotConvergedError] holds the number of tries and the position and rotation error
    that remained after the last try, which is above a tolerance. *)
Theorem C74_solver {T} `{Scalar T} t ovf (la : linalg T) (sv : solver T) (h : gmap nat (node T)) nx arm target c e s :
  chain_of h (c_nodes arm) arm -> all_live h (c_nodes arm) -> plain h (c_movable arm) -> inside_limits h (c_movable arm) ->
  length (ignored_joint_names c) <= c_dof arm ->
  run t (solve_with_constraints ovf la sv arm target c) (quiet h nx) = Done (Err e) s ->
  match e with
  | PreconditionError d r => r = count_true (define_operational_space c) /\ d + length (ignored_joint_names c) = c_dof arm /\ d < r
  | InvalidJointNameError nm => nm ∈ ignored_joint_names c /\ nowhere_named h (c_movable arm) nm
  | InverseMatrixError => True
  | NotConvergedError k pd rd => k = num_max_try sv /\ exists h' w, only_moved (c_movable arm) h h' /\
      run t (end_transform arm) (quiet h' nx) = Done w (quiet h' nx) /\
      pd = position_error c target w /\ rd = rotation_error c target w /\ ~ on_target sv c target w
  | _ => False
  end.
Proof. exact (solve_err_kind t ovf la sv h nx arm target c e s). Qed.
Print Assumptions C74_solver.

(** C74, texts: from the text one can tell the kind of the error ... *)
Theorem C74_text_kind show show3 e e' : error_text show show3 e = error_text show show3 e' -> kind e = kind e'.
Proof. apply text_kind. Qed.
Print Assumptions C74_text_kind.
(** ... and the joint, the sizes and (if numbers are printed without spaces and differently) the
    position and limits *)
Theorem C74_text_content show show3 : (forall x, spaceless (show x)) -> (forall x y, show x = show y -> x = y) ->
  forall e e', error_text show show3 e = error_text show show3 e' ->
  match e with NotConvergedError _ _ _ => True | MimicError _ _ => True | _ => e = e' end.
Proof.
  intros Hs Hi e e' H. pose proof (text_kind _ _ _ _ H) as K. destruct e, e'; try discriminate K; auto.
  - apply text_limit in H as (-> & H1 & H2 & H3); [|exact Hs]. apply Hi in H1, H2, H3. congruence.
  - apply text_fixed in H. congruence.
  - apply text_size in H as [-> ->]. reflexivity.
  - apply text_precondition in H as [-> ->]. reflexivity.
  - apply text_invalid in H. congruence.
Qed.
Print Assumptions C74_text_content.
(** the text of a [MimicError] does not tell the joints: names may contain " to " *)
Theorem C74_mimic_text_refuted show show3 :
  exists a b a' b', error_text show show3 (MimicError a b) = error_text show show3 (MimicError a' b') /\ a <> a'.
Proof. exists "left to right"%string, "wrist"%string, "left"%string, "right to wrist"%string. split; [reflexivity|discriminate]. Qed.
Print Assumptions C74_mimic_text_refuted.

(** ** cases *)
(** an f32 joint from -1/2 to 0.1, asked for 0.3 and for NaN *)
Definition third : spec_float := SFdiv 24 128 (SFofZ 24 128 3) (SFofZ 24 128 10).
Definition elbow : joint spec_float :=
  let L := Build_libm (fun x => x) (fun x => x) (fun x _ => x) in
  joint_set_limits (joint_new (Sc := F32 L) "elbow" (Linear (z_axis (Sc := F32 L))))
    (Some (Range (SFdiv 24 128 (SFofZ 24 128 (-1)) (SFofZ 24 128 2)) (SFdiv 24 128 (SFofZ 24 128 1) (SFofZ 24 128 10)))).
Example C74_case_values : let L := Build_libm (fun x => x) (fun x => x) (fun x _ => x) in
  valid_binary 24 128 third = true /\
  (forall r, j_limits elbow = Some r -> valid_binary 24 128 (rmin r) = true /\ valid_binary 24 128 (rmax r) = true) /\
  exists e e', snd (joint_set (Sc := F32 L) elbow third) = Err e /\ snd (joint_set (Sc := F32 L) elbow S754_nan) = Err e' /\
  (** 0.3f32 as f64 is 0.30000001192092896 *)
  reported e = OutOfLimitError "elbow" (S754_finite false 5404319767592960 (-54)) (S754_finite false 7205759511166976 (-56)) (S754_finite true 4503599627370496 (-53)) /\
  reported e' = OutOfLimitError "elbow" S754_nan (S754_finite false 7205759511166976 (-56)) (S754_finite true 4503599627370496 (-53)).
Proof.
  cbv zeta. split; [reflexivity|]. split; [intros r [= <-]; split; reflexivity|]. eexists _, _. split; [reflexivity|]. split; [reflexivity|]. vm_compute. split; reflexivity.
Qed.
Example C74_case_text show show3 :
  error_text show show3 (SizeMismatchError 3 12) = "size mismatch input = 3, required = 12"%string /\
  error_text show show3 (SetToFixedError "base") = "joint base is fixed joint but the position is set"%string.
Proof. split; reflexivity. Qed.
(** the arm of C32, asked to go 30 up when it can go 12 *)
Example C74_case_solver : let s := after pole in let p := solve_with_constraints true la1 (sv1 4) pole3 (up 30) (only_z []) in
  chain_of (heap s) (c_nodes pole3) pole3 /\ all_live (heap s) (c_nodes pole3) /\ plain (heap s) (c_movable pole3) /\
  inside_limits (heap s) (c_movable pole3) /\ length (ignored_joint_names (only_z [])) <= c_dof pole3 /\
  (fst <$> final (run 0 p s)) = Some (Err (NotConvergedError 4 (V3 (f 0) (f 0) (f 18)) (V3 (f 0) (f 0) (f 0)))).
Proof. cbv zeta. destruct C32_case as (H1 & H2 & H3 & H4 & H5 & _). repeat (split; [assumption|]). split; [cbn; lia|exact H5]. Qed.
