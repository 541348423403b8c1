# Formal model of OTL/k in Rocq (Coq 8.16.1)

Source of truth: `/repo` at the pinned commit (crate `k` 0.25.0).  Nothing in
`/repo` is executed; the model is a hand translation, function by function, with
a citation (`file:lines`) on each definition.

## 1. Shape of the model

All files are in `rocq/theories`.

| Layer | Files | Models |
|---|---|---|
| Scalars | `Scalar.v`, `ScalarR.v`, `ScalarF.v` | `T: RealField` as a type class of *operations only* (no laws). Instances: `R`, and IEEE-754 binary32/binary64 by `Coq.Floats.SpecFloat` (NaN, infinities, rounding). |
| Geometry | `Geometry.v` | the nalgebra 0.26 types used by `k`: `Vector3`, `UnitQuaternion`, `Isometry3` and their products. |
| Joints, links | `Joint.v`, `Link.v`, `BuilderM.v` | `src/joint/*.rs`, `src/errors.rs`, `src/link.rs`, the builders |
| Heap programs | `Prog.v` | `Arc<Mutex<NodeImpl>>`: a free monad with commands Lock / Unlock / Get / Put / New / Upgrade / Panic. **One** program text has two semantics: `run` (sequential, big step) and `tstep` (interleaving of any number of threads). Lock re-entry, poisoning, panics and exhausted fuel are explicit outcomes. |
| Nodes, iterators | `NodeM.v` | `src/node.rs`, `src/iterator.rs`, `connect!` |
| Chains | `ChainM.v` | `src/chain.rs` (Chain and SerialChain, clone, display) |
| Algorithms | `FuncsM.v`, `IkM.v` | `src/funcs.rs`, `src/ik.rs` |
| Linear algebra | `LuM.v`, `SvdM.v` | nalgebra's LU decomposition and solve; solve and pseudo inverse from a given singular value decomposition |
| Serialization | `SerdeM.v` | `Constraints` from and to data (`src/ik.rs`, feature `serde-serialize`) |
| URDF | `UrdfM.v` | `src/urdf.rs` from an already parsed `urdf_rs::Robot` |
| Clients | `Api.v` | every public function touching nodes as data (`api`), and adaptive client programs over them (`client`): finitely many calls, each chosen from the results of the earlier ones |
| Ownership | `Own.v` | the same calls with strong counts: cloning and dropping handles, recursive deallocation |

Specifications are in `Spec*.v` (small; they do not mention model helpers beyond
the data types), proofs in the other files, and the property theorems in
`Prop*.v`, which contain statements with short proofs, `Print Assumptions`, and
the non-vacuity `Example`s.  `MANIFEST.json` maps properties to theorem names.

`Replay*.v` run the crate's own unit, integration and documentation tests
(`tests/*.rs`, the `#[test]`s and the doc examples with assertions, README) on the
model, in f32/f64 as the tests are, with the crate's expected values; all pass.
For this only, libm and the linear algebra are filled in (`ReplayLib.v`).  They are
tests of the translation, not proofs, and no claim rests on them.

### Proof machinery
* `Safe.v` / `SafeSound.v`: a separation-style program logic (`safe`, `tri`) over the
  commands, with rely/guarantee parameters (`mode`).  It is proved sound both for
  `run` and for every interleaving of `tstep`; `SafeNode.v`, `SafeChain.v` give a
  triple for each API function, and `ApiProofs.v`, `ApiSound.v` lift them to all
  client programs.  This is what C05, C14, C23, C33, C39-C43 rest on.
* `GraphProofs.v`, `LinkProofs.v`: inductive rose trees related to heaps.
* `FKProofs.v`, `JacReal.v`, `RGeom.v`, `PoseDiff.v`: forward kinematics as an
  inductive relation, quaternion algebra and derivatives over `R`.
* `IkProofs*.v`, `StepProofs.v`, `LinArm.v`, `LinIk.v`: the solver loop; `Conv*.v`,
  `FConv*.v`: its convergence over `R` and over floats.
* `Clone*.v`, `Urdf*.v`, `Own*.v`: the calls that allocate and free nodes.

### Conventions
* `&mut self` methods return the new value; `Result`/`Option` stay data; a panic
  is the `Panic` command and ends the thread (poisoning the locks it holds).
* A guard (`MutexGuard`, `JointRefGuard`, ...) is an explicit Lock ... Unlock pair
  placed where Rust's temporary-lifetime rules put it.
* Data-dependent loops (`Ancestors`, `Descendants`, Display recursion) take fuel;
  running out is the distinguished outcome `OutOfFuel`, never a normal value.
* `usize` subtraction is explicit: with overflow checks it panics, without it wraps
  modulo 2^64 (`ovf` flag).
* nalgebra's LU, SVD and pseudo-inverse are *arguments* (arbitrary functions;
  LU also has a model, `LuM.v`, which C66, C76, C77 and the replayed tests put in, and
  solving with a given singular value decomposition has one, `SvdM.v`, see C67);
  a theorem that needs something of them says so in a hypothesis.
* libm's `sin`, `cos`, `atan2` are arguments of the float instance.

## 2. Trusted base
* Coq's kernel (8.16.1), including `vm_compute` (used in examples and a few
  finite computations).  `native_compute` is not used.
* `Print Assumptions` is run under the property theorems.  Every theorem falls
  in one of the classes listed in section 6 (generated from the kernel's answer);
  only axioms of the standard library occur.  std++ and Flocq are used as
  libraries of definitions and lemmas; they add no axioms.
* The reading of `/repo` recorded in the definitions' comments.
* The reading of the dependencies: nalgebra 0.26 (formulas in `Geometry.v`, LU in `LuM.v`, SVD solve in `SvdM.v`),
  `std::sync::Mutex` (non-reentrant, poisoned by a panic while held),
  `Arc`/`Weak`, `HashMap` (last insert wins), Rust's drop order of temporaries.

### Modelled
All functions of `src/node.rs`, `src/iterator.rs`, `src/chain.rs`, `src/funcs.rs`,
`src/ik.rs`, `src/joint/*.rs`, `src/link.rs`, `src/errors.rs` and
`src/urdf.rs`, except as listed next.

### Not modelled
* XML/xacro parsing (`urdf_rs`), file I/O, logging (`info!`, `debug!`), `Debug`
  formatting, serialization formats (the derived serde code of `Constraints` is in `SerdeM.v`), printing of floats and vectors in error messages, the GUI
  examples and benches.
* The computation of the singular value decomposition (that one exists, and that the solver's
  answer does not depend on which is taken, is C79); rounding in the SVD; performance.
* Weak memory: threads interleave at command granularity.  That this misses
  nothing is C69 (no data races) and C75 (a machine on which reads may be stale,
  and views pass through mutexes only, shows the same).  In that machine a read
  cannot return a write made later, and `Weak::upgrade` sees whether the node is
  alive; processors and compilers that go beyond it are not modelled.
* The payloads of errors keep type `T` in the programs; their conversion to `f64` and
  the texts are in `ErrorM.v` (C74).
* `std::sync::Mutex::lock` by the owning thread is allowed by its documentation to
  panic instead of blocking; the model takes the documented deadlock.
* Stack depth: recursive deallocation and Display recursion do not overflow.

## 3. Findings
Where the code does something a user may not expect, the property says what is
true and a `_refuted` theorem or an example exhibits the behaviour:
* `update_velocities` never returns on a chain with a movable joint: it locks a
  node whose guard it still holds (C39).
* `set_joint_position` on a mimic child is ignored with `Ok` (C07); on a parent it is not
  atomic when a child fails (C08); propagation is one level deep (C06); the clamped
  and unchecked setters do not propagate (C09).  Its `MimicError` branch would
  deadlock; it is unreachable through the API.
* `set_mimic_parent` twice leaves the child in both lists; `set_parent` does not
  detach from the old parent, `remove_parent` detaches whatever parent there was (C10).
* `is_root` is false for an orphan whose parent was dropped, while `parent()` is
  `None`; nodes in a parent cycle leak (C43).
* A fresh joint starts at 0 even if its limits exclude 0 (C05); then IK may return
  `Ok` with a joint out of its limits (C31) and cannot restore it on failure (C32).
* `Chain::clone` reverses the order of siblings, so positions copied by index go to
  other joints on a branching tree (C24); it panics on chains that do not contain
  the parent of a node (C25).
* After `set_joint_position` only the node's own cached transform is cleared;
  descendants keep stale ones (C20), and `jacobian` mixes caches and fresh
  transforms (C30).
* `end_transform` of a chain cut out of a tree is relative to the cut, while
  `update_transforms` uses (or panics on) the outside parent's cache (C19).
* `try_new` on an empty chain underflows `len() - 1` (C26).
* IK: more ignored names than joints underflows (C35); `num_max_try = 0` panics (C35);
  with ignored joints and a square system the ignored joint's value moves (C34).
* Two racing `set_mimic_parent`, or `Display` racing with a setter, can deadlock (C40).
* `Chain::joint_positions`, `set_joint_positions` and `end_transform` are not atomic:
  a concurrent reader can see a mixture of old and new positions (C55).
* While a guard from `joint()`, `children()` or `link()` is alive, every call that
  locks that node blocks, the thread's own calls too; two threads each holding a
  guard can deadlock (C56).
* A node built with limits that exclude 0 starts outside them (C57, C05).
* Poison is contagious: a poisoned mimic child poisons its mimic parent at the next `set_joint_position`, after the parent has moved (C61). A single thread can never create poison (C61).
* A target whose rotation is NaN is accepted as reached: the rotation vector of the NaN quaternion has no axis and counts as zero (C62).  Likewise a last turning joint left at NaN, if only rotations are constrained (C83).
* The solver moves mimic joints on their own: after `Ok` they are out of step, and writing back the positions just read moves the arm (C84).
* With constraints on only some of the coordinates the solver depends on the frame: the same arm, carried elsewhere with its target, may fail with `InverseMatrixError` (C85). With whole position and rotation it does not.
* `clone` rebuilds the mimic links in the order of the chain, not in the order they were made. When a mimic joint is out of range the setter stops at it, so the clone and the original can stand in different positions after the same command (C86). Made in the order of the chain, they behave alike for ever.
* `update_link_transforms` places the link of a node in the frame of the parent node, not of the node. On a robot loaded from a description, where a node carries the child link of its joint, every link is therefore drawn as if its own joint (with its origin tag) were missing, while `center_of_mass` uses the right frame (C95; C28 states the same for any chain).
* A square arm in a singular posture gets `InverseMatrixError` even when the target is the pose it already has, because the solver inverts the Jacobian before it looks at the error (C88_here_refuted). A tolerance of zero is never met (C88_zero_tolerance).
* A name repeated in `ignored_joint_names` panics for the first and the last joint; for another joint the solver reports `Ok` but moves the wrong joints: columns `j - 1` and `j` of the Jacobian are removed, and zeros are inserted for joints `j` and `j + 1` (C90).
* A redundant arm with linear and rotational joints is moved differently when the same robot is described in millimeters: the shortest step adds squares of lengths and angles (C91_redundant_refuted). The cutoff `1e-4` for small singular values has no unit either.
* With ignored joints and a square system the wrong joint moves (C34), and it moves in the sense of the joint it should have been: reversing the axis of one joint reverses the motion of another (C92_ignored_refuted). Limits with `min > max` send the positions between them to `min`, so reversing such a joint changes where it goes (C92_limits_refuted).
* An arm whose base is not in its chain is solved with whatever is cached in the base: a stale cache decides between `Ok` and `NotConvergedError` (C89_cut_arm_refuted).
* URDF: `limits` absent iff `upper - lower == 0`; inverted limits panic, even for
  fixed joints, unless they become equal in f32 (C45); an unknown mimic source
  panics (C46); of several free links the last one wins (C47); `joint_to_link_map`
  has a wrong root entry (C48); cyclic joints are silently dropped (C44).
* The order of the joint tags in the URDF file decides which number of `set_joint_positions` goes to which joint of the whole robot, and the order of the link tags which base link is kept when there are several; arms taken from an end joint do not depend on it, except that the order of joints that mimic one joint decides which of them move when one refuses (C96).
* A URDF joint that mimics a joint which mimics another one is never moved by `set_joint_position(s)`, although the call returns `Ok` (C97_chained_refuted).
* The text of `MimicError` is ambiguous (C74); that of `PreconditionError` says the number of
  free joints must be greater than the number of constrained coordinates, but equal is
  accepted (C35).

## 4. Plan per property
(`Modelled by` and the proof technique; theorem names are in `MANIFEST.json`)

| Id | Modelled by | Proof |
|---|---|---|
| C01, C02 | `range_new`, `is_valid`, `clamp` over any scalar whose comparisons satisfy the NaN-aware order laws; both instances proved to satisfy them | case analysis; NaN and inverted range by witnesses |
| C03, C04 | pure joint functions | case analysis, exact resulting record |
| C05 | client programs executed with `run` from any heap | invariant in the Safe logic, induction over the client |
| C06-C09 | `node_set_joint_position` etc. | loop invariant over the mimic list; heap equality for the frame; witnesses for non-atomicity |
| C10 | link operations on heaps; `forest` predicate in a spec file | invariant by induction over histories |
| C11, C12 | `ancestors`, `descendants` with fuel | induction over an inductive path / rose tree relating heap to tree; divergence for every fuel on cycles |
| C13, C14, C27 | chain constructors, getters | induction over lists; joint types invariant under all operations |
| C15-C17 | chain setters | induction over the zip |
| C18-C20, C22 | `update_transforms`, `end_transform` against the inductive relation `FK` | induction over the chain; scalar-generic (bit exact); rigidity over R |
| C21 | `local_transform` over R | algebra with unit-norm hypotheses |
| C23-C25 | `chain_clone` | heap simulation; tree relabelling; histories on disjoint node sets (Safe logic) |
| C26 | `try_new` | induction over trees |
| C28, C29 | `update_link_transforms`, `center_of_mass` | list induction; weighted-sum algebra over R |
| C30 | `jacobian` over R | derivative of products of isometries with `derivable_pt_lim` |
| C31-C36, C38 | `solve_with_constraints` etc. with arbitrary linear algebra | loop invariants over iterations; witnesses for the failures |
| C37 | `calc_pose_diff` over R | trigonometry of atan2 / scaled axis |
| C39 | lock bookkeeping of `run` | Safe logic; characterisation of the two exceptions |
| C40-C42 | `tstep` with thread pools | lock-order invariant over all schedules (Safe logic); explicit schedules for the hangs/panics |
| C43 | `Own.v` | invariant: count = handles + occurrences in live nodes |
| C44-C49 | `UrdfM.v` | map/fold invariants; trigonometric identities; Flocq for the float limits |
| C50 | `chain_fmt` | induction over trees |
| C51 | `solve` over R with an exact-solve hypothesis on LU/SVD | affine forward map, geometric error |
| C52 | composition of C31, C18, C19 | corollary |
| C53, C54 | one solver iteration; null space motion over R | exact characterisation; Penrose equation |
| C55 | client programs of single-section calls, `tstep` | simulation: each call takes effect at its lock; serial order extracted, stable under extension; torn chain calls by explicit schedules |
| C56 | a thread holding a guard (`joint()`, `children()`, `link()`) | lock ownership invariant; runs under a held lock compared command by command |
| C57 | `NodeBuilder`, `LinkBuilder` as state machines over setter calls | last-writer per field by induction over the calls |
| C58, C59 | forward kinematics over R (`SpecReach`, `ReachProofs`) | triangle inequality over the path (reach); rigid base motion; Lipschitz bound, chord at most arc |
| C60 | the same functions over IEEE floats (`SpecFloatErr`, `FloatErr`, `SpecAcc`, `AccProofs`, `AccProofs2`) | Flocq gives the error of one operation; a relation counting roundings; perturbation of quaternion products; error recurrence over the path |
| C61 | client programs on `run` with poison (`SpecPoison`, `PoisonProofs`) | every call's panics occur outside its lock sections: weakest-precondition style rules per command, then induction over the client |
| C62 | the solver over IEEE floats against the real arm (`SpecSolved`, `FloatBack`, `SolvedProofs`, `SolvedProofs2`) | backward analysis: a passed comparison forces every intermediate result to be finite, so each is the rounding of an exact value; polar form of the quaternion difference, sin x >= x/2 |
| C63 | node queries and setters, link elements | one critical section each; last-writer induction over calls |
| C64, C65 | `jacobian`, `solve_one_loop_with_constraints` over R (`TrajProofs`, `TrajQuat`, `TrajLog`, `TrajStep`) | chain rule along the arm by induction; derivative of the orientation quaternion; derivative of the rotation vector of the remaining rotation; the proposed joint motion does not depend on the multiplier |
| C66 | nalgebra's LU decomposition and solve with partial pivoting (`LuM`, `LuProofs`) | equal to eliminating the right side along with the matrix (the row exchanges commute with the updates), then induction on the size: one step preserves the solutions |
| C67 | nalgebra's `SVD::solve` and `pseudo_inverse` for a given decomposition (`SvdM`, `SpecLin`, `SvdProofs`) | coordinates in the orthonormal families, Parseval and Bessel; a square orthonormal family spans by C66 |
| C68 | all non-allocating calls (`SpecApart`, `ApartProofs`) | the program logic of `Safe.v` with the thread's own nodes as the shared ones; one step through a window of the heap is the step in the window alone; induction over the interleaving |
| C69 | all calls (`SpecRace`, `RaceProofs`) | a machine without lock checks with traces of events; the program logic of `Safe.v` shows that clients never touch without the lock, so the checks lose nothing; the owner of a mutex along a trace |
| C75 | all calls (`SpecView`, `ViewProofs`) | a machine with records of writes and views; the program logic of `Safe.v` is strengthened to say which nodes a thread has come to know (`step_know`, `names_sound`); simulation by the interleaving semantics |
| C70 | all calls (`SpecRace`, `RaceProofs`) | programs are well-founded trees, lists of them decrease at one position per step; C40's progress theorem; a predicate over programs for the fuel |
| C71 | as C65 (`SpecConv`, `ConvGeom`, `ConvRot`, `ConvList`, `ConvStep`, `ConvIk`, `ConvReg`) | second order bounds for the end position and rotation of a chain of joints, triangle inequality for angles of rotations, Newton-Kantorovich induction over the loop; full rank nearby because the velocities of the end are Lipschitz in the positions |
| C72 | `jacobian` over floats (`SpecJacAcc`, `AccJac`) | the pose bounds of C60 for the prefixes of the arm, a bound for differences and cross products, then C30's derivatives for the ideal columns |
| C73 | `center_of_mass` over floats (`SpecComAcc`, `AccCom`) | the pose bounds of C60 for each link; backward error of the two sums and the quotient; errors relative to the sum of absolute terms |
| C74 | `errors.rs` (`ErrorM`, `SpecError`, `ErrorProofs`, `ErrorIk`) | a number of a narrower format is representable in f64 (Flocq); texts are split at their last space; induction over the solver loop for the remaining errors |
| C76 | `LuM` over floats (`SpecLuAcc`, `LuAcc`) | one elimination step is an exact step of a nearby matrix; induction on the size with growth 3 per step; non-finite entries survive to the answer; a zero pivot column gives the nearly unseen motion; perturbation of the ideal matrix by C72 |
| C77 | float `solve_with_constraints` (`SpecConvAcc`, `FConvJac`, `FConvCore`, `FConvStep`, `FConvOne`, `FConvLoop`) | the ideal Jacobian stays invertible in the ball; C72 and C76 bound the float step; second order bound of the end's motion gives contraction by 1 - m/2 plus rounding; clamps inside the limits change nothing; the exit test is passed at iteration k at the latest |
| C78 | `ChainM` queries, `SerialChain` constructors | running the loop over the nodes; the refuted part by a schedule of the interleaving semantics |
| C79 | `SvdM`, `IkM` solver | a Lipschitz function on a box attains its maximum (induction on the dimension); the maximiser of a bilinear form with a penalty is a pair of singular vectors; deflation. Uniqueness by comparing the inner products of two families of singular vectors. Programs are compared as trees |
| C80 | derived serde of `Constraints` (`SerdeM`) | induction over the entries, relating the fields read so far to the values given to each name |
| C81 | `calc_pose_diff` over floats (`PoseFwd`) | forward error of the quaternion quotient, of its norm (with underflow), of `atan2` and of the scaling; the direction is divided by a length bounded below by the format, or the vector is short |
| C82 | the whole solver over floats, full pose (`FPoseCore`, `FPoseNum`, `FPoseLoop`) | as C77, with the pose error of C81: a step shrinks the ideal error up to second order and rounding, and the float error is near the ideal one |
| C83 | the solver on NaN and infinities (`NanProofs`) | NaN or infinity survives sums, differences and products with anything; a norm of such a vector is never less than a tolerance; `Unit::try_new` refuses a NaN norm |
| C84 | `set_joint_positions` and the solver with mimic joints (`CoupleProofs`) | each write of a free joint also writes its mimic children; all values written while restoring are those of the start |
| C85 | the solver under a motion of the base (`BaseLin`, `BaseProofs`, `BaseSolve`) | the Jacobian and the error are both multiplied by the rotation; LU and SVD solutions of `QJ x = Qe` and `J x = e` agree; a simulation relation between the two runs carries this through the loop |
| C86 | robots whose nodes correspond (`SpecIso`, `IsoProofs`, `IsoClone`) | a relation between programs (same commands, corresponding addresses) that `run` respects; every public function is related to itself, so every client is; the clone of a tree gives such a correspondence |
| C87 | the loop of the solver (`SpecVerdict`, `VerdictProofs`) | induction over the misses: the loop with `k + n` tries left equals the loop with `n` left after `k` misses; each verdict is then read off the next iteration |
| C88 | asking for the pose the arm has (`StayProofs`) | the error is zero, so LU (by uniqueness, C66) and SVD (by its norm bound, C67) give the zero motion; C87 turns the first iteration into the verdict |
| C89 | queries, setters and the solver on states that differ in caches (`CacheProofs`) | programs that answer alike on such states are closed under sequencing; the Jacobian is read off the tree (C18), not off the caches |
| C90 | `ignored_joint_names` (`NamesProofs`) | a permutation of the names permutes the indices, which are sorted; for a repeated index the removals and the insertions of the loop are computed |
| C91 | the solver on one robot described in two units (`UnitProofs`, `UnitSolve`) | a relation between programs closed under sequencing; pivoting LU may pick other rows in the other unit, so its answers are compared by uniqueness (C66), not step by step |
| C92 | the solver on one robot whose joints are described with other zeros and senses (`SenseProofs`, `SenseSolve`) | as C91; a decomposition of the matrix with turned columns is obtained from one of the matrix, and by C79 the answer does not depend on the one taken |
| C93 | the solver on a robot and on its mirror image (`MirrorProofs`, `MirrorSolve`) | as C91; only rows change their sign, so the joint motions are equal, and programs that remove columns and insert rows are related without knowing that the indices are distinct |
| C94 | load, set positions, update transforms or solve, against the description itself (`PlaceProofs`, `PlaceRun`) | joins C44, C45, C49, C17, C18, C19, C21 and C31: induction on the path to the root, with the description's own recursion over link names on the other side |
| C95 | `center_of_mass` and `update_link_transforms` on a loaded robot, against the description (`PlaceLinks`) | C28 and C29 with the frames of C94; a permutation between the nodes and the links of the description |
| C96 | the loader on two descriptions with the same tags in other orders, then any client (`ShuffleProofs`) | the loaded nodes are described by C44 through names only; a bijection of the indices gives the correspondence that C86 needs; sorted child lists with the same members are equal |
| C97 | load a description with mimic tags, `set_joint_positions`, `update_transforms`, against the description (`ObeyProofs`) | C84 for what a successful call leaves, C06 by induction over the list for when it succeeds (limits and mimic tags do not change on the way), C94 for the places |
## 5. Testing the theorems
`seeded/LOG.jsonl` records, for each seeded change of the model, the definition,
the edit, the claim it should break and what was seen.  The changes are made in a
scratch copy, which is then built with `make -k`.

* `proofs_failed`: the proofs at which coqc stopped, at most one per file.
* `theorems_failed`: the theorems of the manifest, as it was when the change was
  tried, whose proof uses one of those (transitively, by the references in the
  `.glob` files).  Such a theorem no longer proves; it need not be false.
  `claims_affected` are the claims of these theorems.
* `outcome`: `caught` only if a theorem of the named claim is among them.  The first
  error of a file hides the later ones, so other outcomes are tried again
  (`second_run`): each failing proof is admitted in the scratch copy and the build
  goes on.
* `theorems_tightened`: added or strengthened because nothing failed.

Correction: the first versions of this log named a wrong claim for 79 of the first
177 entries (`claim_broken_as_first_logged` keeps it) and listed as failed every theorem
of that claim in a file that was not built, whether or not its proof used the failing
lemma.  Both fields were recomputed.  The edits and the proofs seen
to fail are as first recorded.

Not tested directly: no logged change names one of these claims as the one it should
break: C05, C52, C58, C60, C62, C64, C65, C68, C69, C70, C71, C72, C73, C75, C77, C79,
C81, C82, C83, C93, C95.  Of these, C81, C82, C83, C93, C95 have not been seen to fail
under any logged change.  For C93 and C95 changes were prepared but not run.  One change
prepared for C87 (v04: the solver reports the distances of its first iteration) was run by
mistake against C95, which it does not concern and did not break; it has no entry in the
log.

## 6. What `Print Assumptions` lists

### Closed under the global context (no axioms) - 250 theorems
C01_range_from, C02_clamp_nan, C03_joint_set_position, C03_joint_velocity, C03_joint_fresh,
C04_joint_set_clamped, C04_joint_set_clamped_inside, C04_joint_set_unchecked,
C05_all_joints_stay_inside, C05_joint_stays_inside, C05_fresh_joint_refuted,
C06_mimic_children_follow, C06_succeeds_iff, C07_mimic_child_ignores, C08_failing_mimic_update,
C09_clamped_no_propagation, C09_unchecked_no_propagation, C10_forest_invariant,
C10_attach_detach, C10_connect, C10_reparent_refuted, C11_ancestors, C11_ancestors_only,
C11_acyclic_ends, C11_cycle_diverges, C12_descendants, C12_descendants_only, C12_forest_tree,
C12_cycle_diverges, C13_from_nodes, C13_from_root, C13_from_end, C13_from_end_to_root,
C13_iter_joints, C14_joint_positions, C14_types_immutable, C14_dof, C15_set_then_get,
C15_size_mismatch, C16_failure_applies_prefix, C17_clamped, C17_unchecked,
C18_update_transforms, C18_from_end_qualifies, C18_from_root_qualifies, C18_world_unique,
C18_client, C19_end_transform, C19_cut_chain, C19_cut_chain_panics, C20_set_position_clears_own,
C20_set_unchecked_clears_own, C20_set_clamped_clears_own, C20_set_origin_clears_own,
C20_update_makes_fresh, C20_fresh_is_stable, C20_descendants_fresh_refuted, C23_clone_is_fresh,
C23_using_the_clone, C23_using_the_original, C24_isomorphic_copy, C24_unbranched_positions,
C24_twice, C24_branching_positions_refuted, C25_empty, C25_panics, C25_returns,
C25_cut_chain_panics, C26_tree, C26_any, C26_empty, C27_find, C27_solver_lookup,
C28_update_link_transforms, C28_own_frame, C28_client, C29_center_of_mass,
C31_ok_means_on_target, C31_any_start, C31_solve, C31_out_of_limits_start_refuted,
C32_err_restores, C32_mimic_child_refuted, C32_out_of_limits_start_refuted, C33_solver_frame,
C34_ignored_float, C34_one_iteration, C34_square_branch, C34_equal_dof_refuted,
C35_precondition, C35_unknown_name, C35_before_moving, C35_too_many_names_panics,
C35_too_many_names_never_ok, C35_no_tries_panics, C36_masked_difference, C36_spread_again,
C36_rows_kept, C36_jacobian_shape, C38_nullspace, C39_no_self_deadlock,
C39_update_velocities_never_returns, C39_update_velocities_deadlocks, C39_fixed_at_rest,
C39_display_cycle_deadlocks, C40_no_deadlock, C40_progress, C40_set_mimic_parent_race_refuted,
C40_display_race_refuted, C41_threads, C42_update_transforms_race, C42_jacobian_race,
C42_poison_is_permanent, C42_poisoned_calls_panic, C43_counts, C43_held_is_alive,
C43_chain_is_alive, C43_clone, C43_drop, C43_calls, C43_calls_end, C43_collected,
C43_nothing_left, C43_parent, C43_parent_in_chain, C43_drop_parent, C43_orphan, C43_cycle_leaks,
C44_tree, C44_parents, C44_cycles_are_dropped, C45_conversion, C45_inverted_limits_f32_refuted,
C45_bad_limits_panic, C46_mimic_follows, C46_succeeds_iff, C46_unknown_source_panics, C47_links,
C47_load, C47_inertia, C47_elements, C48_link_to_joint, C48_inverse, C48_root_entry,
C48_root_entry_refuted, C50_display, C50_rows_are_preorder, C50_display_returns,
C50_empty_panics, C50_tags_kinds, C50_tags_axes_float, C52_end_to_end, C53_iteration,
C54_set_clear, C55_atomic, C55_linearizable, C55_joint_positions_torn_refuted,
C55_mimic_update_torn_refuted, C55_set_parent_torn_refuted, C56_guard_stable, C56_other_nodes,
C56_guarded_node_hangs, C56_own_method_hangs, C56_chain_hangs, C56_two_guards_deadlock_refuted,
C57_finalize, C57_into_node, C57_link, C57_urdf_joint, C57_inside_limits_refuted,
C61_panic_leaves_no_poison, C61_poison_spreads, C63_queries, C63_read_back, C63_elements,
C63_new_elements, C66_lu_length, C68_as_alone, C68_no_waiting, C68_own_world, C68_rest,
C68_mimic_link_refuted, C69_no_data_race, C69_touch_locked, C69_handed_over,
C69_checks_lose_nothing, C69_before_in_time, C70_no_infinite_execution, C70_all_finish,
C70_reached, C70_no_fuel_needed, C70_set_mimic_parent_refuted, C74_solver, C74_text,
C74_text_kind, C74_text_content, C74_mimic_text_refuted, C75_one_memory, C75_nothing_lost,
C75_reads_newest, C75_knows, C75_stale_read, C75_no_stale_read, C75_not_handed_over, C78_links,
C78_origin, C78_no_nodes, C78_serial, C78_links_refuted, C80_reads, C80_round_trip, C80_order,
C80_listed, C80_default, C83_end_pose, C83_ok, C83_blind, C83_nan_orientation,
C83_rotation_refuted, C84_set_positions, C84_err_restores, C84_success_refuted, C86_twins,
C86_moved, C86_clone, C86_clone_order_refuted, C87_verdict, C87_hit, C87_stop, C87_missed,
C87_more_tries, C87_wider, C89_solver, C89_chain, C89_center_of_mass, C89_after, C89_asked,
C89_cut_arm_refuted, C90_order, C90_first_twice, C90_twice, C90_mixed_up, C90_last_twice,
C90_twice_refuted, C96_shuffled, C96_reach, C96_vector_order_refuted, C96_base_refuted,
C96_mimic_order_refuted, C97_chained_refuted

### `ClassicalDedekindReals.sig_forall_dec` - 1 theorems
C97_one_posture

### `ClassicalDedekindReals.sig_forall_dec`, `ClassicalDedekindReals.sig_not_dec`, `Classical_Prop.classic`, `FunctionalExtensionality.functional_extensionality_dep` - 129 theorems
C01_range_real, C01_range_ieee, C02_clamp_real, C02_clamp_ieee, C02_clamp_inverted_refuted,
C21_rigid, C21_fixed, C21_linear, C21_linear_distance, C21_rotational, C21_rotation_fixes_axis,
C21_rotational_periodic, C22_update_transforms, C22_any_chain, C22_end_transform,
C22_rotation_matrix, C29_mean, C29_half_space, C29_box, C29_root_moves,
C30_jacobian_is_derivative, C30_cut_chain_refuted, C34_ignored_real, C37_zero_iff_same_pose,
C37_pose_diff, C37_atan2, C45_axis_real, C45_origin_real, C45_limits_real, C45_limits_f64,
C45_limits_f32, C49_rpy, C49_isometry, C50_tags_axes_real, C50_tags_other, C51_iteration,
C51_converges, C53_defaults, C54_null_space, C58_reach, C58_hole, C58_solved_in_reach,
C58_out_of_reach, C58_tight, C59_base_moves_all, C59_base_moves_end, C59_small_moves,
C60_end_transform, C60_update_transforms, C60_linear, C60_f64, C60_f32, C62_position,
C62_orientation, C62_linear, C62_f64, C62_f32, C62_nan_target_refuted, C64_end_velocity,
C65_first_order, C65_closer, C66_lu_exact, C66_lu_singular, C66_iteration, C66_exact_solver,
C66_closer, C67_solve, C67_pinv, C67_bounded_step, C67_exact_solver, C67_closer,
C71_newton_step, C71_converges, C71_from_start, C71_local, C72_columns, C72_derivative, C72_f64,
C73_center_of_mass, C73_f64, C74_exact, C74_out_of_limit, C76_residual, C76_near_singular,
C76_answer, C76_iteration, C76_step, C77_converges, C77_f64, C79_exists, C79_decomposes,
C79_same_answer, C79_same_solver, C79_converges, C81_pose_error, C81_f64, C82_converges,
C82_f64, C85_same_solution, C85_same_positions, C85_whole_refuted, C88_stays, C88_own_pose,
C88_singular, C88_zero_tolerance, C88_here_refuted, C91_solver, C91_forward, C91_center_of_mass,
C91_redundant_refuted, C92_solver, C92_forward, C92_setters, C92_center_of_mass, C92_reference,
C92_limits_refuted, C92_ignored_refuted, C93_solver, C93_forward, C93_setters,
C93_center_of_mass, C93_planar, C94_forward, C94_inverse, C94_distance, C95_center_of_mass,
C95_links, C95_drawn_at_own_joint_refuted, C97_obeyed

### `ClassicalDedekindReals.sig_forall_dec`, `ClassicalDedekindReals.sig_not_dec`, `FunctionalExtensionality.functional_extensionality_dep` - 6 theorems
C21_rotation_additive, C21_rotation_periodic, C21_rotation_plane, C49_axes, C62_ideal_arm,
C94_one_place

### `ClassicalDedekindReals.sig_forall_dec`, `FunctionalExtensionality.functional_extensionality_dep` - 1 theorems
C93_image
