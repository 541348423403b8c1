(** * C03, C04: position setters of a single joint *)
From Coq Require Import Reals String ZArith Floats.SpecFloat Lra.
From Verif Require Import Scalar ScalarR ScalarF Geometry Joint SpecJoint RangeProofs JointProofs.

(** C03, for every scalar arithmetic: [joint_set] returns the new joint and the
    Result. *)
Theorem C03_joint_set_position {T} `{Scalar T} (j : joint T) (p : T) :
  let j' := fst (joint_set j p) in
  let res := snd (joint_set j p) in
  (res = Ok tt <-> admissible j p) /\
  (res = Ok tt -> moved_to j p j' /\ joint_position j' = Some p) /\
  (forall e, res = Err e -> j' = j /\
    ((j_type j = Fixed /\ e = SetToFixedError (j_name j)) \/
     (movable j /\ exists r, j_limits j = Some r /\
        ~ (sle (rmin r) p = true /\ sle p (rmax r) = true) /\
        e = OutOfLimitError (j_name j) p (rmax r) (rmin r)))).
Proof. exact (set_joint_lemma j p). Qed.
Print Assumptions C03_joint_set_position.

Example C03_case :
  let L := Build_libm (fun x => x) (fun x => x) (fun x _ => x) in
  let F := F64 L in
  let one := SFofZ 53 1024 1 in let two := SFofZ 53 1024 2 in
  let j := joint_set_limits (joint_new (Sc := F) "elbow" (Linear (z_axis (Sc := F))))
             (Some (Range (S754_zero false) one)) in
  snd (joint_set (Sc := F) j one) = Ok tt /\
  j_position (fst (joint_set (Sc := F) j one)) = one /\
  joint_set (Sc := F) j two = (j, Err (OutOfLimitError "elbow" two one (S754_zero false))) /\
  joint_set (Sc := F) j S754_nan = (j, Err (OutOfLimitError "elbow" S754_nan one (S754_zero false))).
Proof. vm_compute. repeat split; reflexivity. Qed.

(** C03, velocities: [set_joint_velocity] stores the value and forgets the cached
    world velocity, nothing else; a fixed joint refuses and has neither a velocity
    nor a position; the limits do not bound velocities. *)
Theorem C03_joint_velocity {T} `{Scalar T} (j : joint T) (v : T) :
  let j' := fst (joint_set_velocity j v) in
  let res := snd (joint_set_velocity j v) in
  (res = Ok tt <-> movable j) /\
  (res = Ok tt -> joint_velocity j' = Some v /\ j_wv_cache j' = None /\
     j_name j' = j_name j /\ j_type j' = j_type j /\ j_position j' = j_position j /\
     j_limits j' = j_limits j /\ j_origin j' = j_origin j /\ j_wt_cache j' = j_wt_cache j) /\
  (forall e, res = Err e -> j' = j /\ e = SetToFixedError (j_name j)) /\
  (joint_velocity j = None <-> j_type j = Fixed) /\ (joint_position j = None <-> j_type j = Fixed).
Proof.
  unfold joint_set_velocity, joint_velocity, joint_position, movable. destruct j as [nm ty ps ve li og wt wv].
  destruct ty; cbn; repeat split; intros; try congruence; auto; discriminate.
Qed.
Print Assumptions C03_joint_velocity.
(** changing the limits (a public field) touches nothing else, caches included;
    a new joint stands at zero, at rest, with nothing cached *)
Theorem C03_joint_fresh {T} `{Scalar T} (j : joint T) (l : option (range T)) name ty :
  (let j' := joint_set_limits j l in
   j_limits j' = l /\ j_name j' = j_name j /\ j_type j' = j_type j /\ j_position j' = j_position j /\
   j_velocity j' = j_velocity j /\ j_origin j' = j_origin j /\ j_wt_cache j' = j_wt_cache j /\
   j_wv_cache j' = j_wv_cache j) /\
  (let j' := joint_new name ty in
   j_limits j' = None /\ j_name j' = name /\ j_type j' = ty /\ j_position j' = szero /\
   j_velocity j' = szero /\ j_origin j' = iso1 /\ j_wt_cache j' = None /\ j_wv_cache j' = None).
Proof. cbn. auto 20. Qed.
Print Assumptions C03_joint_fresh.
Example C03_case_velocity :
  let j := joint_new "elbow" (Linear (z_axis (T := R))) in
  snd (joint_set_velocity j 5%R) = Ok tt /\ joint_velocity (fst (joint_set_velocity j 5%R)) = Some 5%R /\
  snd (joint_set_velocity (joint_new "base" Fixed) 5%R) = Err (SetToFixedError "base").
Proof. cbn. auto. Qed.

(** C04: clamped setter on a fixed joint, without limits, with limits. *)
Theorem C04_joint_set_clamped {T} `{Scalar T} (j : joint T) (p : T) :
  (j_type j = Fixed -> joint_set_clamped j p = j) /\
  (movable j -> j_limits j = None -> moved_to j p (joint_set_clamped j p)) /\
  (movable j -> forall r, j_limits j = Some r -> moved_to j (clamp r p) (joint_set_clamped j p)).
Proof. exact (set_clamped_lemma j p). Qed.
Print Assumptions C04_joint_set_clamped.

(** C04: with ordered limits and a value that is not NaN the stored position is
    within the limits (reals and IEEE numbers satisfy [OrdLaws]). *)
Theorem C04_joint_set_clamped_inside {T} `{Scalar T} `{!OrdLaws T} (j : joint T) (p : T) :
  limits_wf j -> snum p -> inside (joint_set_clamped j p).
Proof. exact (set_clamped_inside j p). Qed.
Print Assumptions C04_joint_set_clamped_inside.

Theorem C04_joint_set_unchecked {T} `{Scalar T} (j : joint T) (p : T) :
  moved_to j p (joint_set_unchecked j p).
Proof. exact (set_unchecked_lemma j p). Qed.
Print Assumptions C04_joint_set_unchecked.

Example C04_case :
  let j := joint_set_limits (joint_new "elbow" (Linear (z_axis (T := R)))) (Some (Range (-1) 1)%R) in
  limits_wf j /\ snum 5%R /\ movable j /\ j_position (joint_set_clamped j 5%R) = 1%R.
Proof.
  cbn zeta. split; [|split; [|split]].
  - intros r [= <-]. cbn. apply Rleb_spec. lra.
  - apply R_snum.
  - discriminate.
  - cbn. apply (clamp_real_lemma (Range (-1) 1)%R 5%R); cbn; lra.
Qed.
