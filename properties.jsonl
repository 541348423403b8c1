{"id": "C01", "title": "Range membership is exactly the closed interval", "statement": "Range::is_valid(v) is true iff min <= v <= max (both bounds included); a NaN value is never valid. Range::new(min,max) succeeds iff min <= max and panics otherwise (including when a bound is NaN). Range::from(a..=b) is Range::new(a, b).", "quantifier": "all ranges, all IEEE-754 values (both f32 and f64, incl. NaN, infinities, signed zero) and all real numbers", "why_tests_cant": "the value space is 2^64 per argument; NaN/infinity/boundary combinations have to hold for every triple", "anchors": ["src/joint/range.rs: Range::new, Range::is_valid, From<RangeInclusive>"]}
{"id": "C02", "title": "Clamping returns the nearest admissible value", "statement": "For a range with min <= max and a value that is not NaN, Range::clamp returns a value is_valid accepts, returns the value itself when it is already valid, the violated bound otherwise, and is idempotent. A NaN value is returned unchanged (so it is not made valid), and for an inverted range (constructible because min/max are public) clamp is neither valid nor idempotent.", "quantifier": "all ranges and all values, IEEE and real", "why_tests_cant": "must hold at every boundary and for every float; sampling misses NaN and inverted ranges", "anchors": ["src/joint/range.rs: Range::clamp"]}
{"id": "C03", "title": "Setting a joint position is all-or-nothing on one joint", "statement": "Joint::set_joint_position(p) returns Ok iff the joint is movable and p lies in the limits (if any); on Ok the position reads back exactly p, both caches are cleared and nothing else changes; on Err the joint is completely unchanged and the error names the joint (and the limits that were violated). set_joint_velocity likewise stores its value iff the joint is movable, forgetting only the cached world velocity; changing the limits touches nothing else; a new joint stands at zero, at rest, without limits or caches.", "quantifier": "every joint (type, limits, position, caches) and every position value", "why_tests_cant": "quantifies over all joints and all floats including NaN", "anchors": ["src/joint/joint.rs: new, set_joint_position, joint_position, set_joint_velocity, joint_velocity, is_movable", "src/errors.rs"]}
{"id": "C04", "title": "Clamped and unchecked setters on one joint", "statement": "set_joint_position_clamped on a movable joint stores clamp(p) (p without limits), so the stored position is within valid limits whenever p is not NaN; on a fixed joint it changes nothing. set_joint_position_unchecked stores p verbatim on any joint. Both clear the joint's own caches and touch no other field.", "quantifier": "every joint and every position value", "why_tests_cant": "quantifies over all joints and floats", "anchors": ["src/joint/joint.rs: set_joint_position_clamped, set_joint_position_unchecked"]}
{"id": "C05", "title": "Positions stay inside the limits over any history of safe setters", "statement": "If every limited joint starts inside its (well-formed) limits, then after any finite sequence of node/chain operations other than the *_unchecked setters and clamped setters given NaN, every limited movable joint is still inside its limits, including joints moved indirectly as mimic children. A freshly built joint may start outside (position 0 is not checked against limits).", "quantifier": "all heaps of nodes, all finite histories of API calls, all argument values", "why_tests_cant": "histories and heaps are unbounded", "anchors": ["src/node.rs: set_joint_position, set_joint_position_clamped", "src/chain.rs: set_joint_positions, set_joint_positions_clamped", "src/joint/joint.rs: Joint::new"]}
{"id": "C06", "title": "Mimic children follow their parent on set_joint_position", "statement": "When Node::set_joint_position(p) returns Ok on a node that is not itself a mimic child, that node reads back p, every mimic child c reads back p*multiplier_c+origin_c with c's current Mimic, and no other node of the heap is changed in any field.", "quantifier": "all heaps with any number of mimic children, all positions", "why_tests_cant": "number and overlap of mimic children unbounded; frame condition ranges over the entire heap", "anchors": ["src/node.rs: set_joint_position, set_mimic_parent", "src/joint/mimic.rs: mimic_position"]}
{"id": "C07", "title": "A mimic child ignores direct position commands", "statement": "Node::set_joint_position on a node that has a mimic parent (alive or already dropped) returns Ok for every position - even NaN, out of limits or on a fixed joint - and changes nothing anywhere.", "quantifier": "all heaps, nodes and positions", "why_tests_cant": "for every value and state; the frame condition covers the entire heap", "anchors": ["src/node.rs:203-207"]}
{"id": "C08", "title": "What a failing mimic update leaves behind", "statement": "When Node::set_joint_position returns Err: if the node's own joint rejected the position nothing changed; otherwise the node itself and exactly the mimic children before the rejecting one hold their new positions and all later ones are untouched (the call is not atomic), and the error is the rejecting child's. Mimic links are followed one level only: children of a mimic child are not moved.", "quantifier": "all heaps and mimic lists, all positions, every failing index", "why_tests_cant": "failing index and list length unbounded", "anchors": ["src/node.rs:203-224"]}
{"id": "C09", "title": "Clamped and unchecked setters do not propagate to mimic children", "statement": "Node::set_joint_position_clamped/_unchecked (and their Chain versions) change only the addressed joints; mimic children keep their position, so the mimic relation can be broken (and a mimic child can be moved directly).", "quantifier": "all heaps, nodes, values", "why_tests_cant": "frame property over the whole heap", "anchors": ["src/node.rs:243-258", "src/chain.rs:365-377"]}
{"id": "C10", "title": "Parent/child links stay consistent", "statement": "In any state reached by creating nodes, attaching parentless nodes under nodes outside their own subtree with set_parent, and detaching with remove_parent from the actual parent, the graph is a forest: c is listed exactly once among p's children iff p is c's parent, and there are no cycles. set_parent then remove_parent restores both nodes' links. connect! on distinct nodes makes each node the parent of the next one in the list and changes nothing else. set_parent on a node that already has a parent leaves the old parent's child list unchanged, so the node is then listed under two parents.", "quantifier": "all finite histories of link operations", "why_tests_cant": "histories unbounded", "anchors": ["src/node.rs: set_parent, remove_parent, is_root, is_end, parent, children; connect!"]}
{"id": "C11", "title": "Ancestor iteration is the path to the root", "statement": "iter_ancestors yields the node itself, then its parent, and so on up to the node whose parent is absent (or dropped), each exactly once, and terminates on every acyclic graph; on a parent cycle it never ends.", "quantifier": "all heaps, all nodes, depth unbounded", "why_tests_cant": "depth and graph shape unbounded; termination is not testable", "anchors": ["src/iterator.rs: Ancestors", "src/node.rs: iter_ancestors"]}
{"id": "C12", "title": "Descendant iteration enumerates the subtree once, parents first", "statement": "iter_descendants (and Chain::from_root / Chain::iter) yields exactly the nodes reachable through children, each once, every node after its parent, in depth-first pre-order taking the LAST child first; it terminates on every finite tree and never terminates on a child cycle.", "quantifier": "all finite trees, any branching and depth", "why_tests_cant": "tree shape unbounded; termination", "anchors": ["src/iterator.rs: Descendants", "src/chain.rs: from_root, iter"]}
{"id": "C13", "title": "Chain constructors select the documented nodes", "statement": "from_end gives root..end along the parent links in that order; from_end_to_root stops at root_joint (included) or, if root_joint is not an ancestor, continues to the root of the tree; from_nodes keeps the given list. dof() is the number of movable nodes and iter_joints enumerates exactly these in chain order.", "quantifier": "all heaps, all node pairs", "why_tests_cant": "unbounded depth, arbitrary end/root pairs", "anchors": ["src/chain.rs: from_end, from_end_to_root, from_nodes, dof, iter_joints"]}
{"id": "C14", "title": "joint_positions has length dof and never panics", "statement": "For any chain built by any constructor, after any sequence of API calls, joint_positions() returns exactly dof() values, the current position of each movable node in chain order, and cannot hit its 'Must be a bug' panic; dof() does not change.", "quantifier": "all chains and all later histories", "why_tests_cant": "history unbounded; joint types must be proved immutable through the node API", "anchors": ["src/chain.rs: joint_positions, from_nodes"]}
{"id": "C15", "title": "set_joint_positions then joint_positions round-trips", "statement": "On a chain of distinct nodes without mimic joints, if the slice has dof() values each admissible for its joint, set_joint_positions returns Ok and joint_positions then returns exactly that slice; nodes outside the movable list are unchanged. A wrong length yields SizeMismatchError{input,required} and changes nothing.", "quantifier": "all chains, all vectors", "why_tests_cant": "chain length and values unbounded", "anchors": ["src/chain.rs: set_joint_positions, joint_positions"]}
{"id": "C16", "title": "A failing set_joint_positions applies exactly a prefix", "statement": "If joint i is the first to reject its value, set_joint_positions returns that joint's error, joints before i hold the new values and joints from i on are unchanged (the call is not atomic).", "quantifier": "all chains, vectors, failing index", "why_tests_cant": "failing index unbounded", "anchors": ["src/chain.rs:356-358"]}
{"id": "C17", "title": "Clamped/unchecked bulk setters are positionwise and truncate", "statement": "set_joint_positions_clamped / _unchecked set joint i to clamp(v_i) / v_i for each i below the shorter of dof and the slice length, silently ignoring the surplus on either side, and change nothing else.", "quantifier": "all chains of distinct nodes, all vectors of any length", "why_tests_cant": "lengths unbounded", "anchors": ["src/chain.rs:365-377"]}
{"id": "C18", "title": "Forward kinematics is the product of local transforms along the path", "statement": "On a chain in which each node's live parent occurs earlier (every from_root / from_end chain), update_transforms never panics, returns for each node the product identity*local(root)*...*local(node) along parent links, stores the same value in world_transform() of each node, and does not depend on or read stale caches; positions, links and nodes outside the chain are untouched. A second call returns the same list.", "quantifier": "all trees, joint values, initial cache contents, all scalar arithmetics (no algebraic law is used, so it is bit-exact for floats)", "why_tests_cant": "tree shape, depth, cache states unbounded", "anchors": ["src/chain.rs: update_transforms", "src/node.rs: parent_world_transform, world_transform", "src/joint/joint.rs: local_transform, set_world_transform"]}
{"id": "C19", "title": "end_transform agrees with update_transforms", "statement": "For a serial chain starting at a parentless node, end_transform() equals the last element of update_transforms() bit for bit. For a chain cut from the middle of a tree (from_end_to_root) end_transform is relative to the cut, update_transforms uses the outside parent's cache (stale if an ancestor moved meanwhile) and panics when that cache is empty.", "quantifier": "all serial chains, all joint values", "why_tests_cant": "length unbounded; exact float agreement cannot be sampled", "anchors": ["src/chain.rs: end_transform, update_transforms"]}
{"id": "C20", "title": "Which cached world transforms are stale", "statement": "Setting a joint's position (checked, clamped or unchecked, the joint having no mimic children) or origin clears world_transform() of that joint only (the clamped setter changes nothing on a fixed joint): descendants keep their old value, which is then wrong. After update_transforms on a chain containing a node and its ancestors, that node's world_transform() is right, and it stays right under any operations that move only joints that are not its ancestors-or-self.", "quantifier": "all trees, all histories between updates", "why_tests_cant": "histories and tree shapes unbounded", "anchors": ["src/joint/joint.rs:120-124,160-165,181-184", "src/chain.rs: update_transforms"]}
{"id": "C21", "title": "Local transforms are rigid motions of the documented kind", "statement": "Over the reals, with unit axis and unit origin rotation: local_transform is a rigid motion; Fixed gives the origin; Linear with position p displaces by exactly p along the axis (in the origin's frame) without rotating; Rotational with position p rotates by p about the axis through the origin point, fixes the axis, is additive in p and 2*pi-periodic in its action on points.", "quantifier": "all real positions, unit axes, unit origin rotations, points", "why_tests_cant": "continuum of values", "anchors": ["src/joint/joint.rs: local_transform"]}
{"id": "C22", "title": "World transforms remain rigid", "statement": "Over the reals, if all axes and origin rotations are unit, every transform returned by update_transforms or end_transform has a unit rotation and preserves distances, for chains of any length. The rotation matrix of a unit rotation turns every vector as the rotation does.", "quantifier": "all chains and positions", "why_tests_cant": "length unbounded", "anchors": ["src/chain.rs: update_transforms, end_transform"]}
{"id": "C23", "title": "A clone shares nothing with the original", "statement": "When Chain::clone returns, all nodes of the clone are new, every reference inside the clone points inside the clone, the original's nodes are unchanged, and afterwards no sequence of operations on either chain changes any node of the other.", "quantifier": "all chains, all later histories on either copy", "why_tests_cant": "aliasing must be excluded for all histories", "anchors": ["src/chain.rs: Clone for Chain"]}
{"id": "C24", "title": "A clone is an isomorphic copy up to sibling order", "statement": "Cloning the from_root chain of a root node (a tree in which mimic parents are inside the tree) yields a chain with the same number of nodes and dof and a bijection preserving joints (name, type, limits, position, origin, caches), links, parent relation and mimic relation, but siblings are visited in the opposite order: the clone's order is the first-child-first pre-order. Hence clone.joint_positions() == chain.joint_positions() holds for chains without branching but fails for branching ones; cloning twice restores the order.", "quantifier": "all trees", "why_tests_cant": "shape unbounded; the repository's own clone test uses symmetric data and does not notice", "anchors": ["src/chain.rs:461-505"]}
{"id": "C25", "title": "When cloning panics", "statement": "Chain::clone of an empty chain gives an empty chain; it panics if the first node has a parent link (for example any from_end_to_root chain not starting at the real root), or if some node's live parent or live mimic parent is not in the chain, or if a node has a live mimic parent but no Mimic; otherwise it returns.", "quantifier": "all chains", "why_tests_cant": "all shapes", "anchors": ["src/chain.rs: Clone for Chain", "src/chain.rs: Clone for SerialChain"]}
{"id": "C26", "title": "SerialChain::try_new accepts exactly the unbranched trees", "statement": "For a chain built by from_root, try_new succeeds iff no node of the tree has two or more children, and then the nodes form a single parent path. For other chains it inspects children outside the chain: a from_end chain of a branching tree is rejected although it is serial. On an empty chain it panics (overflow checks) .", "quantifier": "all trees", "why_tests_cant": "shape unbounded", "anchors": ["src/chain.rs: SerialChain::try_new"]}
{"id": "C27", "title": "find returns the first node of that name", "statement": "Chain::find(name) returns the earliest node in chain order whose joint has that name, and None iff there is none; ditto name lookup in the IK solver among movable joints.", "quantifier": "all chains and names", "why_tests_cant": "chain length unbounded", "anchors": ["src/chain.rs: find", "src/ik.rs:307-320"]}
{"id": "C28", "title": "Link transforms", "statement": "update_link_transforms sets the world transform of the inertial, every collision and every visual of each link to (world transform of the PARENT node, identity for a root) * (its own origin), after refreshing all world transforms; nothing else of the link changes. It therefore differs from the frame center_of_mass uses (the node's own world transform) as soon as the joint's local transform is not the identity.", "quantifier": "all trees, any number of visuals/collisions", "why_tests_cant": "shape unbounded", "anchors": ["src/chain.rs: update_link_transforms", "src/link.rs", "src/funcs.rs: center_of_mass"]}
{"id": "C29", "title": "Center of mass is the mass-weighted mean", "statement": "center_of_mass returns sum(m_i * (T_i applied to the inertial origin translation)) / sum(m_i) over exactly the nodes with a link. Over the reals with non-negative masses and positive total it lies in every half-space containing all link centers (so in the bounding box), and translating/rotating the root moves it rigidly.", "quantifier": "all trees, masses, poses", "why_tests_cant": "continuum and unbounded number of links", "anchors": ["src/funcs.rs: center_of_mass"]}
{"id": "C30", "title": "The Jacobian is the derivative of forward kinematics", "statement": "Over the reals, for a serial chain from a root, column i of jacobian(arm) is the derivative with respect to joint i of the end position (rows 0-2), and its rows 3-5 are the angular velocity omega with d/dq (R v) = omega x (R v) for every vector v; it has 6 rows and dof columns. For a chain cut from a tree whose outside parent is displaced this fails.", "quantifier": "all serial chains of any length, any mix of fixed/linear/rotational joints, all joint values", "why_tests_cant": "continuum of values and unbounded length; a numeric check only samples", "anchors": ["src/funcs.rs: jacobian"]}
{"id": "C31", "title": "IK success means the target was reached", "statement": "If solve/solve_with_constraints returns Ok and the arm's joints started within their limits (or: every joint is written by the iterations, i.e. no ignored joints or redundant freedom, and the linear solvers return full vectors), then in the resulting state the difference between the target and arm.end_transform(), restricted to the constrained coordinates, has position norm < allowable_target_distance and rotation norm < allowable_target_angle, whatever else the linear algebra routines returned. Without that condition it fails: a joint that starts outside its limits and is not written is moved by the final clamping, after the target was found reached.", "quantifier": "all arms with well-formed limits, targets, constraints, solver settings, all behaviours of LU/SVD/pseudo-inverse and nullspace function", "why_tests_cant": "unbounded iterations and arbitrary numeric routines", "anchors": ["src/ik.rs: solve_with_constraints, solve_with_constraints_internal, solve_one_loop_with_constraints"]}
{"id": "C32", "title": "IK failure restores the arm", "statement": "If the solver returns Err and the arm's starting positions are admissible and none of its joints is involved in mimicry, all joint positions of the arm (and everything else but caches) are as before the call. Without those conditions it may not be: a mimic child whose mimic parent lies outside the arm stays moved, and out-of-limit starting positions replace the error by OutOfLimitError and leave the arm partly moved.", "quantifier": "all arms, targets, settings, numeric routine behaviours", "why_tests_cant": "all failure points in all iterations", "anchors": ["src/ik.rs:457-469,340", "src/chain.rs: set_joint_positions"]}
{"id": "C33", "title": "IK moves only the arm", "statement": "A solver call changes no node outside the arm except possibly mimic children of arm joints (during restoration), and never changes names, types, limits, origins, links or graph structure.", "quantifier": "all heaps and calls", "why_tests_cant": "frame property over the entire heap", "anchors": ["src/ik.rs"]}
{"id": "C34", "title": "Ignored joints are not moved", "statement": "With distinct resolvable ignored names and redundant freedom (available dof > constrained coordinates) each solver iteration leaves every ignored joint where it was (if it was within limits). When available dof equals the number of constrained coordinates the code omits the re-insertion and does move ignored joints, applying other joints' corrections to them.", "quantifier": "all arms, sets of ignored joints, numeric routine results", "why_tests_cant": "all index sets", "anchors": ["src/ik.rs:237-282"]}
{"id": "C35", "title": "IK precondition errors", "statement": "Fewer available dof than constrained coordinates gives PreconditionError{dof,necessary_dof}; otherwise an unknown ignored name gives InvalidJointNameError for the first such name; both before any joint is moved. More ignored names than joints panics (overflow checks on) or can never return Ok (wrapping); num_max_try = 0 panics instead of returning NotConvergedError.", "quantifier": "all arms and constraints", "why_tests_cant": "all combinations of counts", "anchors": ["src/ik.rs:297-346"]}
{"id": "C36", "title": "Constraint masks are applied consistently", "statement": "The masked pose difference lists exactly the enabled coordinates in order x,y,z,rx,ry,rz; expanding it again gives the full difference with disabled coordinates zeroed; the Jacobian rows kept are the same coordinates in the same order.", "quantifier": "all 64 masks and all differences / Jacobians of any width", "why_tests_cant": "value spaces unbounded", "anchors": ["src/ik.rs: calc_pose_diff_with_constraints, target_diff_to_len_rot_diff, define_operational_space, 229-235"]}
{"id": "C37", "title": "Pose difference is a faithful error measure", "statement": "Over the reals, for unit rotations: calc_pose_diff(a,b) is zero iff a and b are the same pose; its first half is a-b; rotating b's orientation by the returned rotation vector gives a's orientation; the rotation vector's length is at most pi.", "quantifier": "all pairs of poses", "why_tests_cant": "continuum", "anchors": ["src/ik.rs: calc_pose_diff"]}
{"id": "C38", "title": "Reference nullspace function", "statement": "create_reference_positions_nullspace_function panics iff the vectors differ in length; the closure returns weight_i*(q_i-ref_i) for each i, ignores surplus inputs and panics on too few.", "quantifier": "all vectors", "why_tests_cant": "lengths unbounded", "anchors": ["src/ik.rs: create_reference_positions_nullspace_function"]}
{"id": "C39", "title": "No call deadlocks with itself - except update_velocities and Display of cyclic chains", "statement": "Called with no guard held, every Node/Chain/solver function that returns releases every lock it took and never re-locks a mutex it already holds, with two exceptions. Chain::update_velocities never returns on a chain containing a movable joint: it deadlocks (the joint guard in the match scrutinee is still held when the arm locks the node again). Display of a chain holds the guard of a node while visiting its children, so it deadlocks exactly when a cycle of child links is reachable from the first node.", "quantifier": "all heaps and arguments", "why_tests_cant": "a hang is not a test outcome; must hold for all graphs", "anchors": ["src/node.rs", "src/chain.rs:392-437"]}
{"id": "C40", "title": "Deadlock freedom between threads", "statement": "Any number of threads running position setters/getters, link operations and chain operations (but not set_mimic_parent or Chain's Display) cannot deadlock, in any interleaving. Racing set_mimic_parent with set_joint_position on its parent can hang that thread forever, and racing Display of a chain with set_joint_position can deadlock two threads.", "quantifier": "any number of threads, any programs of those calls, every schedule", "why_tests_cant": "schedules are not enumerable by tests", "anchors": ["src/node.rs: lock, set_joint_position, set_mimic_parent", "src/chain.rs: fmt_with_indent_level"]}
{"id": "C41", "title": "Limits hold under every interleaving", "statement": "With any number of threads running safe setters concurrently, every limited joint that started inside its limits is inside them at every instant, and every access to node data happens under that node's lock.", "quantifier": "any number of threads, every schedule, every instant", "why_tests_cant": "schedules unbounded", "anchors": ["src/node.rs"]}
{"id": "C42", "title": "update_transforms / jacobian racing with a setter", "statement": "With a concurrent set_joint_position, update_transforms can panic with 'cache must exist' and jacobian can panic while holding a guard, which poisons that node so that every later call on it panics.", "quantifier": "existence of a schedule", "why_tests_cant": "a rare race", "anchors": ["src/chain.rs:383", "src/funcs.rs:19", "src/node.rs:73"]}
{"id": "C43", "title": "A chain keeps its nodes and their in-chain parents alive", "statement": "In every history of API calls (returning or panicking), handle clones and handle drops, starting from nothing: every Arc counter equals the number of strong references (handles, child lists, mimic child lists) and no reference dangles; everything strongly reachable from a handle or chain that is held is alive; dropping a handle deallocates exactly the nodes that nothing kept refers to any more and leaves the others unmodified; no call deallocates a node that was alive when it began; without reference cycles the live nodes are exactly those reached from held handles, while two nodes made parents of each other leak. parent() returns the parent as long as that is held. A node whose parent was dropped has parent() = None and the world transform of a root although is_root() is false.", "quantifier": "all histories of creating, linking and dropping handles", "why_tests_cant": "ownership histories unbounded", "anchors": ["src/node.rs: parent, is_root (Weak/Arc)", "src/chain.rs: from_end doc comment"]}
{"id": "C44", "title": "URDF joints become a tree rooted at the synthetic root", "statement": "For a robot whose joints form a forest over its declared links (each link child of at most one joint, link and joint names distinct, acyclic), with limits that convert and known mimic sources: loading returns a chain with one node per joint plus the root node named 'root', parents before children; joint j's parent is the joint whose child link is j's parent link, or the synthetic root if there is none. If there are cycles, loading still returns and exactly the joints on and below cycles are missing from the chain.", "quantifier": "all robots", "why_tests_cant": "robots unbounded", "anchors": ["src/urdf.rs: From<&urdf_rs::Robot> for Chain"]}
{"id": "C45", "title": "URDF joint conversion", "statement": "Revolute and continuous map to Rotational, prismatic to Linear (axis normalised), all others to Fixed; lower == upper means no limits, otherwise limits [lower, upper] converted to T; the conversion panics, even for fixed joints, when the converted limits are not ordered: for f64 exactly when lower > upper or one is NaN, while for f32 ordered limits never panic and some inverted limits do not either; origin is xyz/rpy; name is kept; position starts at 0.", "quantifier": "all joints", "why_tests_cant": "value space unbounded", "anchors": ["src/urdf.rs: From<&urdf_rs::Joint> for Joint"]}
{"id": "C46", "title": "URDF mimic tags", "statement": "A mimic tag makes the joint follow the named joint with multiplier (default 1) and offset (default 0): afterwards a successful set_joint_position(p) on a source that mimics nobody sets the joint to p*multiplier+offset, and it succeeds iff the source accepts p and every follower its value. An unknown source panics.", "quantifier": "all robots", "why_tests_cant": "robots unbounded", "anchors": ["src/urdf.rs: From<&urdf_rs::Mimic>, 301-310"]}
{"id": "C47", "title": "URDF links are attached to the joint they hang from", "statement": "Each link is stored on the node of the joint whose child it is; links that are no joint's child go to the root node (the last one wins). Inertia matrices are symmetric. Visuals and collisions are kept in order with their names, poses, shapes and materials; a missing name or texture becomes the empty string, a missing colour all zeros (transparent black), a missing mesh scale all ones; no world transform is cached.", "quantifier": "all robots", "why_tests_cant": "robots unbounded", "anchors": ["src/urdf.rs:285-299, From<urdf_rs::Inertial>, From<urdf_rs::Visual>, From<urdf_rs::Collision>, From<urdf_rs::Geometry>, From<urdf_rs::Material>"]}
{"id": "C48", "title": "link_to_joint_map and joint_to_link_map", "statement": "For distinct joint names and child links the two maps are mutually inverse on joints not named 'root'; every declared link has an entry in link_to_joint_map, mapping to 'root' iff it is no joint's child (if no joint is named 'root'). joint_to_link_map's root entry is the last link whose name is not a joint name (it looks link names up among joint names), which is in general not the link that is no joint's child.", "quantifier": "all robots", "why_tests_cant": "robots unbounded", "anchors": ["src/urdf.rs: link_to_joint_map, joint_to_link_map"]}
{"id": "C49", "title": "rpy angles mean yaw-pitch-roll", "statement": "Over the reals quaternion_from([r,p,y]) is the rotation Rz(y)*Ry(p)*Rx(r) and is a unit quaternion.", "quantifier": "all angles", "why_tests_cant": "continuum", "anchors": ["src/urdf.rs: quaternion_from, isometry_from"]}
{"id": "C50", "title": "Display prints the chain's nodes as an indented tree", "statement": "Chain's Display prints exactly the chain's nodes reachable from the first node, each on one line, first child first, indented by its depth below the first node; it panics on an empty chain. Joint type tags are distinct for the three kinds and for the six signed coordinate axes.", "quantifier": "all trees", "why_tests_cant": "shape unbounded", "anchors": ["src/chain.rs: fmt_with_indent_level", "src/joint/joint_type.rs: Display"]}
{"id": "C51", "title": "Exact convergence for arms of linear joints", "statement": "Over the reals, for an arm with only linear/fixed joints, no limits, exact linear solves and a target the arm can reach, each solver iteration scales the constrained position error by exactly (1 - jacobian_multiplier); so the solver returns Ok whenever |1-m|^k * |error| drops below the tolerance for some k with 1 <= k <= num_max_try.", "quantifier": "all such arms, targets, settings", "why_tests_cant": "continuum of values, unbounded iterations", "anchors": ["src/ik.rs: solve_one_loop_with_constraints, solve_with_constraints_internal"]}
{"id": "C52", "title": "End-to-end: solve on a branch, read from the tree", "statement": "If solve(SerialChain::from_end(node), target) returns Ok, the joints on the branch having started within their limits, then after update_transforms on the entire tree chain, node.world_transform() is within the tolerances of target.", "quantifier": "all trees, nodes, targets", "why_tests_cant": "tree shape unbounded; combines IK, FK, sharing between chains", "anchors": ["README.md", "src/ik.rs", "src/chain.rs"]}
{"id": "C53", "title": "Each solver iteration solves exactly the reduced system", "statement": "The system handed to nalgebra in an iteration has exactly the rows of the constrained coordinates and the columns of the joints that are not ignored of the Jacobian at the current positions, and the constrained pose error as right side. With more free joints than constrained coordinates (and no null space function) every non-ignored joint moves by jacobian_multiplier times its own entry of the solution, clamped to its limits, ignored joints by zero, and a failing SVD panics. Otherwise the entries are applied to the joints from the first one on, ignored or not, and a singular matrix gives InverseMatrixError without moving anything. The default solver allows 1 mm and 0.005 rad, multiplies by 0.5, makes 10 tries and has no null space function; the default constraints constrain all six coordinates and ignore no joint.", "quantifier": "all chains, constraints, ignored joints, linear solvers, scalar types", "why_tests_cant": "index shifting over all sets of ignored joints and all solver answers", "anchors": ["src/ik.rs: solve_one_loop_with_constraints"]}
{"id": "C54", "title": "Null space motion does not disturb the task to first order", "statement": "Over the reals, if the pseudo inverse P satisfies J P J = J, the joint motion of an iteration with a null space function moves the constrained coordinates, to first order, by J P err, whatever the null space function returns; ignored joints do not move. Setting or clearing the null space function changes nothing else of the solver.", "quantifier": "all chains, constraints, ignored joints, null space functions", "why_tests_cant": "continuum of values and arbitrary user functions", "anchors": ["src/ik.rs: solve_one_loop_with_constraints, nullspace_function"]}
{"id": "C55", "title": "Calls on a single node are atomic, calls on several are not", "statement": "When several threads share nodes and each only makes calls that concern one node (joint_position, set_joint_position on a node without mimic children, the clamped and unchecked setters, origin/set_origin, parent, children, mimic_parent, is_root, is_end, link/set_link, world_transform, world_velocity, Display of a node, Node::new), then every interleaving gives the results and final nodes of making the calls one at a time in some order, and that order respects real time (a call that returned before another began comes first). Calls that lock several nodes are not atomic: joint_positions can return a vector the arm never had, set_joint_position on a node with two mimic children can be seen half done, and so can set_parent.", "quantifier": "any number of threads, any adaptive programs of such calls, any heap, any interleaving of elementary commands; any scalar type", "why_tests_cant": "the number of schedules is unbounded, and a torn read shows up only under a schedule a test does not control", "anchors": ["src/node.rs: Node", "src/chain.rs: Chain::joint_positions"]}
{"id": "C56", "title": "A held guard freezes its node and blocks every call that locks it", "statement": "joint(), children(), link() and the items of iter_joints and iter_links keep the node's mutex locked while they live. What such a guard shows does not change while it is held, whatever calls the holder makes and whatever other threads do. A call made while guards are held does exactly what it does without them if it locks none of the guarded nodes, and otherwise waits for ever at the first guarded node it locks: every method of the guarded node hangs, also one that only reads, and so do joint_positions and end_transform of a chain through it. Two threads that each look at one node while asking for the other's can deadlock.", "quantifier": "all nodes, all calls and adaptive client programs, any number of threads, any interleaving, any set of held guards; any scalar type", "why_tests_cant": "a hang cannot be observed by a finished test, and the schedules of the other threads are unbounded", "anchors": ["src/node.rs: joint, children, link, JointRefGuard", "src/chain.rs: iter_joints, iter_links"]}
{"id": "C57", "title": "Builders give the last value set for each field", "statement": "Whatever setters of NodeBuilder are called, in any order and number, finalize gives the joint with the last name, type and limits given, the translation of the last origin or translation call, the rotation of the last origin or rotation call (identity, unlimited, Fixed, empty name when never set), position and velocity zero and empty caches; into_node allocates one detached node with that joint. LinkBuilder gives the last name and inertial and all visuals and collisions in call order. The limits are not checked against the initial position: a node can be built outside its own limits.", "quantifier": "all sequences of setter calls; any scalar type", "why_tests_cant": "all orders and numbers of calls", "anchors": ["src/node.rs: NodeBuilder", "src/link.rs: LinkBuilder"]}
{"id": "C58", "title": "The arm reaches no farther than it is long, and unreachable targets are never reported solved", "statement": "The end of an arm is at most the sum of the lengths of its joints' offsets and linear extensions away from the arm's base frame, and at least twice any offset minus that sum; an arm with all offsets in one direction and zero positions attains the bound. Hence when the solver returns Ok with all three position coordinates constrained, the target lies within the sum of offsets and largest allowed linear extensions plus allowable_target_distance (and outside the hole): for a target farther away it never returns Ok, whatever the linear algebra returns and however many iterations it makes.", "quantifier": "all arms of any length whose axes and rotations are unit, all positions, targets, solver parameters, linear algebra; exact reals; joints inside their limits at the start", "why_tests_cant": "all arms and configurations; a false Ok at a single unreachable target would need to be hit by chance", "anchors": ["src/chain.rs: end_transform", "src/ik.rs: solve, solve_with_constraints", "src/joint.rs: local_transform"]}
{"id": "C59", "title": "World transforms follow the base rigidly and the joints continuously", "statement": "Replacing the origin of a tree's root by M * origin, M a rigid motion, replaces every world transform w of the tree by M * w, and the end transform of an arm likewise. Between two settings of an arm's positions the end moves by at most the sum over the joints of the change of position, weighted by 1 for a linear joint and by the length of the rest of the arm for a rotational one; and the image of any vector v under the end's rotation moves by at most the sum of the rotational changes times |v|.", "quantifier": "all trees and arms of any size with unit axes and rotations, all rigid motions, all pairs of settings; exact reals", "why_tests_cant": "a Lipschitz bound for all pairs of configurations, and covariance for all trees and motions", "anchors": ["src/chain.rs: set_origin, update_transforms, end_transform", "src/joint.rs: local_transform"]}
{"id": "C60", "title": "Forward kinematics in floating point is accurate", "statement": "If the float joints of an arm stand for those of an ideal real arm (same kinds, positions and offsets; unit axes and origin rotations right up to a) and the libm's sine and cosine are right up to d, then the end transform computed in IEEE arithmetic is finite, its quaternion is within G^n - 1 of the ideal one and its translation within (G^(8n) - 1) times the arm's length plus an underflow term, where n is the number of joints and G = (1+a)^2 (1+d)^2 (1+32u)^3, u the unit roundoff; the same holds for every node of a tree after update_transforms with n and length those of its path to the root. With a = d = 4u the position error is at most 2048 n u times the length: n * 2^-42 in f64, n * 2^-13 in f32.", "quantifier": "all arms and trees of any size that do not overflow, all positions; every binary format with at least 11 bits of precision, f64 and f32 in numbers; any libm with the stated accuracy", "why_tests_cant": "the number of float inputs; tests compare with other floats, not with the exact value", "anchors": ["src/joint/joint.rs: local_transform", "src/chain.rs: SerialChain::end_transform, Chain::update_transforms"]}
{"id": "C61", "title": "A panic in one thread leaves no poison; poison spreads through mimic parents", "statement": "In a single-threaded program no lock guard is held across a panic: if any call of any client program panics (an assertion, an index, an unwrap), no mutex is left locked and no node is poisoned, so a caller that catches the panic can keep using every node. Once some node is poisoned (which needs a second thread), poison spreads: set_joint_position on a node with a poisoned mimic child panics with the node's own guard held, so the node is poisoned as well, with its joint already moved; the call returns Ok on a driving node only if none of its mimic children is poisoned.", "quantifier": "all client programs of any length over every modelled call, on chains obtained from the crate, all heaps and scalars; for the second part all heaps, poison sets and positions", "why_tests_cant": "a test catches a panic at one call on one robot; that no call anywhere panics while holding a guard is a statement about all call sequences and robots", "anchors": ["src/node.rs:203-223", "src/chain.rs:110,418,428,474-502", "src/funcs.rs:19", "src/ik.rs"]}
{"id": "C62", "title": "In floating point, solver success means the ideal arm is at the target", "statement": "Let solve_with_constraints return Ok in IEEE arithmetic, let the joints it leaves stand for those of an ideal real arm (positions finite and equal, axes and origin rotations right up to a) and let the libm be right up to d. Then the exact end position of the ideal arm differs from the target, in the constrained coordinates, by at most (1+8u) times the allowed distance, plus the accumulated rounding error of forward kinematics, plus an underflow term. If all three rotations are constrained and the target's rotation is a unit quaternion up to b, the exact angle between the ideal end's orientation and the target's is at most (1+16u) times the allowed angle, plus 2d' + 8b + 4(G^n - 1) + 240u and an underflow term, d' the error of atan2. In f64: allowed distance plus n * 2^-42 of the arm's length, allowed angle plus (n+1) * 2^-43. The joints left are the given ones at other positions. A target whose rotation is NaN is accepted as reached, so finiteness is needed.", "quantifier": "all arms, targets, constraints, linear algebra oracles, libms of the stated accuracy, numbers of iterations; every binary format with at least 11 bits, f64 and f32 in numbers", "why_tests_cant": "the code's own check and any test's check are both rounded; only a proof relates them to the exact pose", "anchors": ["src/ik.rs: solve_with_constraints, calc_pose_diff_with_constraints", "src/chain.rs: end_transform"]}
{"id": "C63", "title": "Queries report the stored state, setters are read back", "statement": "On every live node of every heap each query (joint_position, origin, world_transform, world_velocity, link, children, parent, mimic_parent, is_root, is_end) returns the stored field, changes nothing and neither panics nor blocks; a fixed joint has no position; parent and mimic_parent return the referenced node exactly if it is still alive, while is_root only asks whether a reference is stored. After set_origin, set_link, set_parent, remove_parent or set_mimic_parent the queries return what was stored, set_origin forgets the cached transform but not the cached velocity, and no third node changes (a node may even be made its own parent). After any sequence of set_origin, set_world_transform and clear_world_transform calls on an inertial, visual or collision element, its origin is the one last set, its world transform is known exactly if the last call set it, and everything else is untouched.", "quantifier": "all heaps, nodes and values; call sequences of any length", "why_tests_cant": "all heaps, including ones with dangling references and self-parenting; all orders of calls", "anchors": ["src/node.rs:80-156,304-332", "src/link.rs:61-190"]}
{"id": "C64", "title": "The Jacobian maps joint velocities to the end velocity", "statement": "Over the reals, let the movable joints of a serial arm move along any curves, differentiable at one moment. Then the end transform computed for the positions over time has, at that moment, the linear velocity J qd (first three entries) and the angular velocity J qd (last three), J the matrix jacobian returns and qd the joint velocities.", "quantifier": "all serial chains from a root with unit axes and rotations, all lengths, all differentiable joint trajectories", "why_tests_cant": "all curves through a continuum of configurations, all lengths; simultaneous motion of all joints is not covered by the one-joint-at-a-time derivative of C30", "anchors": ["src/funcs.rs: jacobian", "src/chain.rs: end_transform, set_joint_positions_unchecked"]}
{"id": "C65", "title": "For a small enough multiplier a solver iteration brings the arm closer", "statement": "Over the reals with exact linear algebra: if all movable joints are strictly inside their limits and the reduced system is solvable, then for every eps there is a bound below which an iteration with multiplier m returns Ok and leaves a position error within eps*m of (1-m) times the old one, in the constrained coordinates; the same holds for the rotation error if all three rotations are constrained and the target's orientation is less than a half turn away. So for every small enough multiplier nonzero errors strictly shrink. This includes redundant arms with and without a null space function, and ignored joints.", "quantifier": "all serial chains from a root with unit axes and rotations, all targets and constraints, all exact linear algebra oracles", "why_tests_cant": "holds for some neighbourhood of zero at each of a continuum of configurations and targets", "anchors": ["src/ik.rs: solve_one_loop_with_constraints, calc_pose_diff, add_positions_with_multiplier", "src/funcs.rs: jacobian"]}
{"id": "C66", "title": "The LU solve returns the one solution or reports a singular matrix", "statement": "Over the reals nalgebra's LU solve with partial pivoting, as used by the solver when the free joints are as many as the constrained coordinates, answers with the unique solution of the square system, and gives no answer exactly if the columns are linearly dependent (whatever the right side). Hence an iteration on such an arm returns InverseMatrixError, leaving all joints where they were, exactly at singular configurations, and otherwise moves by the unique solution; the linear algebra hypothesis of C51 and C65 holds at every regular configuration. In any arithmetic an answer has one entry for each column.", "quantifier": "all square matrices of any size, all right sides; all arms, targets, constraints and ignored joints with as many free joints as constrained coordinates", "why_tests_cant": "all matrices over a continuum and all sizes; singularity is a measure-zero set that sampling misses, and pivoting errors show only for some orders of magnitudes", "anchors": ["src/ik.rs: solve_one_loop_with_constraints (lu().solve, InverseMatrixError)"]}
{"id": "C67", "title": "The redundant arm's step is least-norm, exact away from singularities and bounded near them", "statement": "Over the reals, let nalgebra's decomposition be a singular value decomposition of the reduced Jacobian J. Then solve(err, 0.0001) never exceeds |err| / 0.0001 in length and never leaves a linear residual longer than err; if every singular value is 0 or greater than 0.0001 it minimises the residual, is the shortest motion doing so, and is exact whenever the system is solvable. pseudo_inverse is a matrix giving the same answers and then satisfies J P J = J. So an iteration of a redundant arm proposes a joint motion of at most 10000 |err| however close to a singular position, with a null space function returning s at most the Pythagorean sum of that and |s|; ignored joints do not move; the linear algebra hypothesis of C51, C54 and C65 holds; and with full rank singular values above 0.0001 a small enough multiplier brings the arm closer.", "quantifier": "all matrices of any size, all decompositions, all right sides; all arms with more free joints than constrained coordinates, all null space functions", "why_tests_cant": "continuum of configurations; the behaviour at the cut-off shows only near singular positions", "anchors": ["src/ik.rs: solve_one_loop_with_constraints (EPS, svd().solve, pseudo_inverse, nullspace_function)"]}
{"id": "C68", "title": "Threads working on separate robots do not affect each other", "statement": "If every thread's handles lie in a set of live nodes that is closed under all references (children, parent, mimic links) and these sets are disjoint, then under every interleaving of any calls that create no node a thread that returns returns what it returns when it runs alone, a thread that panics does so alone, its nodes (and their poisoning) are then exactly as after its run alone, and at every moment it can make its next step unless it has come to the point where it ends alone: no thread waits for another. Nodes belonging to no thread stay as they are. The run alone is also the run in a world where only the thread's own nodes exist. Disjoint node sets are not enough: a mimic link between them lets one thread move the other's joints.", "quantifier": "all heaps, any number of threads, all client programs over the node, chain, Jacobian and solver calls, all interleavings, with any mutexes poisoned beforehand", "why_tests_cant": "all interleavings of unbounded programs; a hidden shared node shows only under particular schedules", "anchors": ["src/node.rs: all Node methods", "src/chain.rs: Chain methods", "src/funcs.rs", "src/ik.rs: JacobianIkSolver::solve"]}
{"id": "C69", "title": "No data races", "statement": "Threads running any calls of the library never race for the data of a node: on a machine that would let a thread read or write a node without holding its mutex, every read or write is made by the thread that holds the mutex of that (live) node; between touches of the same node by two threads the first gives the mutex up and then the second locks it; so any two conflicting accesses are ordered by program order and the handing over of mutexes. Hence the interleaving semantics used by all concurrency claims misses no behaviour.", "quantifier": "all heaps Rust's ownership allows, any number of threads, all client programs over all calls, all interleavings, with any mutexes poisoned beforehand", "why_tests_cant": "a race shows only under particular schedules, and on particular hardware", "anchors": ["src/node.rs: Node::lock and all methods", "src/chain.rs", "src/iterator.rs", "src/funcs.rs", "src/ik.rs"]}
{"id": "C70", "title": "Every schedule comes to an end with all threads finished", "statement": "No execution of threads running calls of the library goes on for ever. For all calls but set_mimic_parent, Display of chains and update_velocities, when nothing can move any more every thread has returned or panicked (or is in a walk over parents or children that has used up its fuel): nobody is left waiting, and such a state is reached from every state. Clients that make no such walks never use up fuel.", "quantifier": "all heaps with well-formed mimic links, any number of threads, all client programs, all interleavings", "why_tests_cant": "liveness under every scheduler cannot be tested", "anchors": ["src/node.rs: all Node methods", "src/chain.rs: Chain methods", "src/funcs.rs", "src/ik.rs: JacobianIkSolver::solve"]}
{"id": "C71", "title": "The solver converges from nearby, quadratically with the full step", "statement": "Over the reals, for every serial arm from a root with unit axes and rotations, with either no rotation or all three rotations constrained and without null space function: one iteration of the solver with multiplier m in (0,1] leaves an error of at most (1-m) times the error before plus 3*L*n*(m*K*error)^2, where L bounds the length of the arm, n is the number of movable joints and K bounds the answers of the linear algebra (so Newton's method of order two for m=1). Hence, if the Jacobian at the starting position has full rank with least singular value s > 1/5000 and the joints are strictly inside their limits, there is a distance such that every target with a smaller error is reached: solve_with_constraints returns Ok after a number of iterations that is the same for all these targets, without ever being stopped by a limit or a singular position, and moves the joints by at most 4/s times the initial error. The constants are explicit. Ignored joints are allowed; the linear algebra is the LU solve for as many constraints as joints, the singular value solve otherwise.", "quantifier": "all serial arms, positions, targets, constraints without partial rotation, multipliers, tolerances", "why_tests_cant": "convergence is about all targets in a ball and unbounded numbers of iterations; tests try a few", "anchors": ["src/ik.rs: solve_with_constraints, solve_with_constraints_internal, solve_one_loop_with_constraints", "src/funcs.rs: jacobian"]}
{"id": "C72", "title": "the Jacobian computed in floating point is accurate", "statement": "Let a float arm stand for an ideal one as in C60 (axes and origin rotations up to a, libm right up to d, no overflow). Then the float Jacobian has one column per movable joint, all entries are finite, and each column equals the derivative of the ideal forward kinematics: the upper half is the derivative of the end's position with an error of at most (g^(16(n+1)) - 1) times twice the arm's length plus one, the lower half the end's turning rate with an error of at most g^(8(n+1)) - 1, where n is the number of joints and g = (1+a)^2 (1+d)^2 (1+32u)^3. In f64 with a, d at most 2^-51 this is 2^-41 per joint relative to the arm's length, for up to 2^41 joints.", "quantifier": "all formats with at least 11 bits of precision, all arms from a root of any length, all joint positions, all libms within the bound", "why_tests_cant": "tests compare single configurations with a tolerance; the bound holds for every arm and position, including ones where cancellation in the lever arm loses digits", "anchors": ["src/funcs.rs:8-38", "src/chain.rs:383-401", "src/joint/joint_type.rs", "src/joint.rs"]}
{"id": "C73", "title": "the center of mass computed in floating point is accurate", "statement": "Let the joints of a float robot stand for those of an ideal one as in C60 and let its links have the same masses and centers; masses are not negative, their sum M is positive, no link center is more than D joints or the length l from the root, and nothing overflows. Then the float center_of_mass is finite and differs from the ideal center of mass (the weighted mean of the ideal link centers, C29) by at most (g^(8(D+1)) - 1) l for the poses plus 32 (N+1) u (g^(8(D+1)) l + N t / M) for the sums over the N links, where g is as in C72, u the unit roundoff and t a bound for underflow. In f64 with a, d at most 2^-51: 2^-42 of l per joint of the depth plus 2^-47 of l per link.", "quantifier": "all formats with at least 11 bits of precision, all trees, any number of links, all masses and joint positions in range, all libms within the bound", "why_tests_cant": "tests compare a few robots with a tolerance; the bound holds for every tree, including links whose centers cancel each other", "anchors": ["src/funcs.rs:40-77", "src/chain.rs:383-401", "src/link.rs:61-106"]}
{"id": "C74", "title": "Errors report what went wrong", "statement": "The f64 numbers in an error equal the f32 or f64 numbers of the robot exactly (NaN and infinities included). An OutOfLimitError from set_joint_position names the joint and holds the refused number and the joint's limits, and compared as f64 the number is not between them. The solver returns only: PreconditionError (free joints, fewer than the constrained coordinates), InvalidJointNameError (an ignored name no movable joint of the arm has), InverseMatrixError, and NotConvergedError with num_max_try and the masked position and rotation error that remained after the last try, one of which is not below its tolerance. The printed text determines the kind of an error, and its content for all kinds but NotConvergedError and MimicError; for MimicError it does not (names may contain ' to ').", "quantifier": "all joints, numbers, limits, arms, targets, constraints, solvers and joint names; formats with at most 53 bits and exponent 1024", "why_tests_cant": "tests look at single messages; exactness of the conversion and unambiguity of texts are about all numbers and names", "anchors": ["src/errors.rs:20-82", "src/joint/joint.rs:104-124", "src/ik.rs:291-346"]}
{"id": "C75", "title": "Weak memory does not show", "statement": "On a machine where every write stays on record, each thread has its own view of the records, a read may return any write not older than the thread's view, and views pass from thread to thread only through a mutex (from who unlocks it to who locks it next), client threads behave as on one shared memory: no thread uses a node or mutex it has not come to know of, a read can return the newest write only, and the states the threads reach are exactly those of the interleaving semantics. Without the mutexes this fails: stale reads, and uses of nodes not handed over.", "quantifier": "all heaps, any number of threads, all client programs of any calls, all schedules and all choices of the memory", "why_tests_cant": "whether a stale value is read depends on the hardware and on timing; tests run on few machines and rarely hit it", "anchors": ["src/node.rs:33-60", "src/node.rs:65-300", "src/iterator.rs:30-120"]}
{"id": "C76", "title": "The LU solve is accurate in floating point", "statement": "The linear system of an iteration with as many free joints as constrained coordinates is solved in floating point, with rounding in every operation. The answer, if finite, solves the system up to a residual of at most 6*3^n units of rounding of the size of the system. No answer (InverseMatrixError) is reported only if some nonzero motion is, up to 3*3^n units of rounding, not seen by the matrix. If the matrix is far from singular there is a finite answer and it is close to the exact solution. So if the reduced Jacobian of the ideal arm is far from singular, an iteration on the float arm does not fail and moves the joints by nearly the solution of the ideal system.", "quantifier": "all sizes n, all finite float matrices and right sides far from overflow, every IEEE format with at least 11 bits, all arms, targets, constraints and ignored joints", "why_tests_cant": "a test compares a few matrices in f64 on one machine; the bound holds for all matrices and for the near singular ones, where the answer changes most", "anchors": ["src/ik.rs:215-289", "src/ik.rs:272-281"]}
{"id": "C77", "title": "The solver converges in floating point", "statement": "The whole inverse kinematics call, computed in floating point with rounding in every operation, answers Ok and not NotConverged if the target is near enough: constraints on positions only, as many joints as constrained coordinates, LU solve as in nalgebra, a Jacobian of the ideal arm far from singular at the start, joints away from their limits, and a tolerance above the rounding errors of an iteration. The error shrinks by the factor 1 - multiplier/2 in each iteration up to rounding, which gives the number of iterations that suffice, and the joints move by no more than a radius given by the initial error. For f64 the rounding error of an iteration is at most 2^-39 per joint, unit of length and unit of joint position.", "quantifier": "all serial arms, all positions, targets, solver parameters and limits meeting the inequalities, every IEEE format with at least 11 bits, every sine and cosine accurate to a bound, all thread ids and rest of the heap", "why_tests_cant": "tests run a few targets in f64; no finite set of runs shows that rounding never makes the loop stall above the tolerance or leave the limits", "anchors": ["src/ik.rs:215-289", "src/ik.rs:291-346", "src/ik.rs:457-469", "src/funcs.rs:8-38"]}
{"id": "C78", "title": "Chain queries report the chain's nodes, links and origin", "statement": "iter_links gives exactly the links of the chain's nodes, those of fixed joints included, in node order, and passes over nodes without a link. origin is the stored origin of the first node, not its transform at the current position; set_origin changes this origin and the first node's cached transform and nothing else; both panic on a chain without nodes. A SerialChain built by from_end or from_end_to_root has the nodes of the path from the root's side to the end, and clones as its inner chain. With several threads iter_links is not safe: if another thread takes a link away between the check and the use, the iteration panics and poisons the node.", "quantifier": "all heaps, chains, lists of nodes, poses and thread ids; one schedule for the refuted part", "why_tests_cant": "tests look at a few fixed robots, one thread at a time; the failing interleaving needs a switch between two locks of one statement", "anchors": ["src/chain.rs:239-246", "src/chain.rs:279-287", "src/chain.rs:566-590", "src/chain.rs:604-613", "src/node.rs:446-449"]}
{"id": "C79", "title": "The solver's motion does not depend on which singular value decomposition is computed", "statement": "Over the reals every Jacobian the solver can meet has a singular value decomposition, with as many singular values as the smaller side of the matrix. Any two decompositions of a matrix give, through svd.solve(&err, EPS) and pseudo_inverse(EPS), the same motion and the same pseudo inverse, however the singular vectors were chosen (equal singular values, signs, order, missing zeros). So solve_with_constraints is one and the same program whichever correct decompositions are computed, also when other threads run in between. Hence the local convergence of C71 holds for nalgebra's solve with no hypothesis about the decompositions.", "quantifier": "all matrices of any size; all pairs of decompositions; all thresholds eps > 0; all arms, constraints, solvers and null space functions", "why_tests_cant": "an SVD routine returns one decomposition per matrix, so tests cannot see whether a different, equally correct routine (another nalgebra version, another BLAS) would move the arm elsewhere; existence for every matrix is a theorem about the reals, not an observation", "anchors": ["src/ik.rs:241-282", "src/ik.rs:291-346"]}
{"id": "C80", "title": "Constraints read from data hold what the data says, with defaults for the rest", "statement": "With serialization enabled, reading Constraints from data with field names succeeds exactly when every field has at most one entry of the right type; the result holds those entries, a flag without an entry is true, the ignored joints without an entry are none, other names and the order of entries do not matter. Data without field names gives the fields in order, the missing ones with their defaults. What is written is read back unchanged, and solving under data that says nothing is solve().", "quantifier": "all data values and constraints; all solvers, arms and scalar types for the last part", "why_tests_cant": "Tests parse a few documents; the claim covers every combination of present, absent, repeated, unknown and wrongly typed entries in any order.", "anchors": ["src/ik.rs:63-96", "src/ik.rs:423-425"]}
{"id": "C81", "title": "The pose error is accurate in floating point", "statement": "calc_pose_diff, applied to finite float poses that stand for ideal poses whose rotations are at most a third of a turn apart, gives six finite numbers. Each of the three translation entries differs from the true difference by one relative rounding. Each of the three rotation entries is within a small multiple of the unit roundoff, of the accuracy of the given rotations and of atan2 of the corresponding entry of the true rotation vector (absolute error, below 2^-39 in f64). This includes rotation vectors that are zero or so short that their squares underflow, and both signs of the quaternions.", "quantifier": "all float formats with at least 11 bits, all libms with atan2 right up to a bound in the first quadrant, all finite poses and ideal poses as described", "why_tests_cant": "tests compare a few poses with hand-picked tolerances; the bound has to hold for every pair of poses, where cancellation, division by a tiny norm and the choice of the quaternion's sign all occur only in corners of the input space", "anchors": ["src/ik.rs:29-39", "src/ik.rs:41-60"]}
{"id": "C82", "title": "The solver converges to a full pose in floating point", "statement": "Let the constraints ask for all three rotations and any of the positions, with as many movable joints as constrained coordinates, none ignored. Let the float arm stand for an ideal serial arm whose Jacobian is far enough from singular at the start, with every joint r away from its limits, and let the float target stand for an ideal pose up to a small error in its rotation. If the ideal end pose starts close enough to the target, and both tolerances are above a multiple of the rounding errors of one iteration, then solve_with_constraints over floats, with nalgebra's LU solve in floats, answers Ok within k iterations, where k makes (1 - m/2)^k times the first error less than the tolerances, and the sum of all joint movements is at most r.", "quantifier": "All precisions of at least 11 bits (f32 and f64 included), all serial arms of any length with any number of fixed joints, all targets, multipliers, tolerances, libm functions within an error bound; no bound on numbers.", "why_tests_cant": "Rounding in forward kinematics, the Jacobian, the elimination, quaternion products and atan2 all feed into the next iteration. A test runs single targets on one machine's libm and cannot show that rounding never stops the iteration short of its tolerance.", "anchors": ["src/ik.rs:29-60", "src/ik.rs:215-289", "src/ik.rs:291-346", "src/ik.rs:361-384", "src/ik.rs:457-469", "src/funcs.rs:8-38"]}
{"id": "C83", "title": "NaN and infinities in positions are noticed, in rotations they are not", "statement": "In IEEE arithmetic, with a libm whose sine and cosine of NaN and infinity are NaN: a sliding joint at NaN or infinity, or a turning one with a joint behind it, makes all three coordinates of the end position NaN or infinite. So when solve_with_constraints returns Ok, no constrained coordinate of the position is NaN or infinite, neither in the target nor at the arm's end, and if any position is constrained, every joint but a turning last one is left at a number. A NaN anywhere in the rotation of the target or of the end makes the rotation error exactly zero: with rotations constrained only, such a target is never reported as not reached, and the solver may answer Ok with its only joint at NaN.", "quantifier": "All binary formats, arms of any length, targets, constraints, linear algebra, numbers of iterations and starting positions (the starting positions inside the limits, or every joint written by the iterations).", "why_tests_cant": "Infinitely many places where a NaN may arise during the iterations, each with its own way through products, norms and comparisons; a test plants one NaN in one joint.", "anchors": ["src/ik.rs:29-60", "src/ik.rs:291-346", "src/ik.rs:361-384", "src/chain.rs:597-601", "src/joint/joint.rs:220-233"]}
{"id": "C84", "title": "Mimic joints in chains and in the solver's arm", "statement": "When set_joint_positions of a chain succeeds, every joint that mimics no other is at the position given for it, every joint that mimics such a one, inside the chain or outside, is at multiplier times that position plus origin, whatever value was given for it, and nothing else has moved. If all mimic joints of the solver's arm mimic joints of the arm that mimic no others, and are in step with them at the start, and everything is inside its limits, a failing solver puts every joint back. A successful one moves mimic joints like any others and leaves them out of step: writing back the positions just read moves the arm.", "quantifier": "All chains and arms, of any length, with any mimic relations satisfying the stated conditions, all positions, targets, constraints and linear algebra; exact over the reals and every float format.", "why_tests_cant": "The restoring writes skip the mimic joints and rely on the writes to their parents, in whatever order the arm lists them; tests in the crate use no arm with mimic joints for inverse kinematics.", "anchors": ["src/chain.rs:349-360", "src/node.rs:203-224", "src/ik.rs:291-346", "src/ik.rs:457-469"]}
{"id": "C85", "title": "The solver does not care where the robot stands", "statement": "If the robot's base and the target are moved by the same rigid motion, and the constraints ask for all three coordinates of the position or none, and likewise of the rotation, the solver gives the same result: the same joint positions on success, the same error otherwise with the reported distances turned along, the same panic if it panics. With only some of the coordinates this fails: a slide that can be asked for x in one place has a singular Jacobian in another.", "quantifier": "All arms of any length that reach a root, all rigid motions, targets in proper poses, all solver parameters and null-space functions, all constraint sets of that form with any ignored joints, every decomposition meeting the SVD contract; over the reals.", "why_tests_cant": "The carried robot has another Jacobian, another error vector and, for redundant arms, another singular value decomposition; that all steps agree is an algebraic fact about the whole loop, and tests fix one base.", "anchors": ["src/ik.rs:229-346", "src/ik.rs:457-469", "src/funcs.rs:9-38", "src/ik.rs:30-60"]}
{"id": "C86", "title": "A robot behaves the same wherever it lies in memory, and a clone like the original", "statement": "If the nodes of two robots correspond one to one, with equal joints, links and mimics and with corresponding parents, children and mimic links, then any client program making the same calls on both ends the same way: the same value, error, panic or deadlock, in states that correspond again. So node addresses never influence a result, and a clone of a whole robot, in the state after cloning, gives a client everything the original would have given it before, provided the mimic links were made in the order of the chain; for branching robots this holds of the calls that do not read child lists. If the mimic links were made in another order it fails: after the same command the clone and the original can stand in different positions.", "quantifier": "All scalars, all heaps, all correspondences of nodes, all client programs of any length over the whole node, chain and solver interface; clones of all trees of any size.", "why_tests_cant": "Addresses and interleaved histories cannot be enumerated, and the example of the mimic order needs an out-of-range command at the right moment.", "anchors": ["src/chain.rs:461-505", "src/node.rs:76-331", "src/node.rs:343-350", "src/ik.rs:291-346"]}
{"id": "C87", "title": "The solver's verdict is what its iterations did", "statement": "From a start inside the limits the solver returns exactly one of three results. Ok: some iteration was the first to bring the end within the tolerances, at most num_max_try were made, and the joints were then put inside their limits. InverseMatrixError: after some misses an iteration could not solve its linear system. NotConvergedError: num_max_try iterations all missed, and the reported differences are those the last one left. Conversely each of these histories gives its result. So more tries never turn a success into a failure and even end in the same state, and wider tolerances never turn a success into a failure.", "quantifier": "All scalars, all linear algebra, all arms, targets, constraints, tolerances and numbers of tries.", "why_tests_cant": "The number of iterations is unbounded, and a report of another iteration's differences looks plausible in any single run.", "anchors": ["src/ik.rs:291-346", "src/ik.rs:215-289", "src/ik.rs:457-472"]}
{"id": "C88", "title": "An arm asked for what it already does stays where it is", "statement": "If the constrained coordinates of the current pose already meet the target, the tolerances are positive, the joints rest inside their limits and the arm is redundant (with no null-space function, or one that asks for no motion) or square in a regular posture, then the solver succeeds and no joint has moved. The current pose meets itself under any constraints. But a square arm in a singular posture reports InverseMatrixError even for the pose it has, and a tolerance that is not positive is never met, not even by the exact pose.", "quantifier": "All arms, postures, constraints, ignored joints, step sizes and positive tolerances, over the reals.", "why_tests_cant": "Postures and targets are continuous; a test at sample poses cannot show that no joint moves in any of them, and singular postures are a null set that random tests miss.", "anchors": ["src/ik.rs:215-289", "src/ik.rs:291-346", "src/ik.rs:457-472"]}
{"id": "C89", "title": "What was asked before does not change an answer", "statement": "Two states of a robot that differ in cached transforms only give the same answers: joint_positions, end_transform, update_transforms, the Jacobian, the center of mass, the setters and the IK solver return the same values or panic alike, and leave states that again differ in caches only. So a call that changes nothing but caches, such as update_transforms or jacobian on any other chain, has no effect on a later solve. This holds for chains that contain the parents of their nodes. It fails for an arm whose base is outside the chain: the solver then takes the direction of the joints from the cache of the base, and a stale cache turns a success into a failure.", "quantifier": "All scalars, all robots, all contents of the caches, all targets, constraints and linear algebra.", "why_tests_cant": "The cache is hidden state: each test fixes one history of calls, and a dependence on a stale cache shows only in histories nobody thought of.", "anchors": ["src/chain.rs:380-390", "src/funcs.rs:8-90", "src/ik.rs:215-346", "src/node.rs:260-310"]}
{"id": "C90", "title": "The list of ignored joints: order is irrelevant, repetition is not", "statement": "Reordering ignored_joint_names changes nothing in what the solver does, as long as the arm has all the names. Repeating a name does: the name of the first joint given twice makes every solve panic (with or without overflow checks), the last joint given twice makes the iteration panic, and for any joint in between the iteration solves the system without the named joint and the one before it, but applies the solution to the joints other than the named one and the one after it, so one joint receives the correction of another and a third, not ignored, never moves.", "quantifier": "All scalars, all arms, postures, targets, constraints, numbers of joints and linear algebra.", "why_tests_cant": "The wrong joints move only when the repeated joint is neither first nor last; the answer is still Ok, so a test on the result cannot tell.", "anchors": ["src/ik.rs:237-239", "src/ik.rs:256-270", "src/ik.rs:299-322"]}
{"id": "C91", "title": "The unit of length does not matter, unless the arm is redundant", "statement": "Describe one robot in two units of length (origins, positions and limits of the linear joints, centers of mass, target and distance tolerance multiplied by k > 0; angles unchanged). Then end_transform, world transforms, the center of mass and the Jacobian are the same up to the unit, and for an arm with no more joints than constrained coordinates solve_with_constraints does the same: it returns Ok on both, or the same error with its lengths converted, or panics with the same message, and it leaves the same robot. This fails for redundant arms with linear and rotational joints: the shortest step adds up squares of lengths and angles, so after one iteration the two robots are different ones.", "quantifier": "All factors k > 0, all robots without mimic links, targets, limits, tolerances, step sizes and numbers of iterations; exact real arithmetic with nalgebra's pivoting LU.", "why_tests_cant": "A test fixes one unit; that a constant with a hidden unit or a mix of meters and radians steers the result can only be seen by comparing all runs in two units.", "anchors": ["src/ik.rs:215-289", "src/ik.rs:291-346", "src/funcs.rs:9-90", "src/ik.rs:246"]}
{"id": "C92", "title": "Zero and sense of the joints do not matter", "statement": "Describe a robot anew: reverse the axes of some joints, move their zeros, and convert origins, positions, limits and the null-space function accordingly. Then world transforms, end_transform and center of mass are the same, the Jacobian columns of reversed joints change sign, the setters accept the same postures, and solve_with_constraints does the same: Ok on both, or the same error with converted numbers, or a panic with the same message, and it leaves the same posture. This covers redundant arms, limits, the library's reference null-space function (with converted reference) and ignored joints. It fails in two cases: limits the wrong way round are clamped to the other end, and with ignored joints and a square system the correction of one joint is applied to another, in the sense of the former, so two descriptions of one robot move in opposite directions.", "quantifier": "All robots with unit axes without mimic links, all choices of zeros and senses, targets, constraints, tolerances and numbers of iterations; exact real arithmetic.", "why_tests_cant": "A test robot has one convention for its joints; that none of the infinitely many others behaves differently is a statement about pairs of runs.", "anchors": ["src/ik.rs:215-346", "src/funcs.rs:9-90", "src/joint/joint.rs:220-233", "src/joint/range.rs:69-77", "src/ik.rs:488-502"]}
{"id": "C93", "title": "A robot and its mirror image move alike", "statement": "Take the mirror image of a robot in a coordinate plane (or in the origin, or turn it by half a turn about a coordinate axis): directions and places are mirrored, axes of rotation are mirrored with their sense, names, positions and limits stay. Then all frames, end_transform and the center of mass are the mirror images, the rows of the Jacobian change sign accordingly, the setters do the same, and solve_with_constraints with the mirror image of the target does the same: it returns Ok on both, or the same error with mirrored differences, or panics with the same message, and leaves the same joint positions. This holds for every choice of constraints, for redundant arms, with any null-space function, and for any list of ignored joints, also one with unknown or repeated names. Every robot has a mirror image, and an arm that is its own mirror image has its end in the mirror plane.", "quantifier": "All robots without mimic links on the arm, all eight combinations of mirrored coordinates, targets, constraints, solvers, lists of ignored joints and numbers of iterations; exact real arithmetic.", "why_tests_cant": "It compares two runs on two robots for every robot; a wrong sign in one row of the Jacobian or of the pose error that is harmless for one arm shows only against its mirror image.", "anchors": ["src/ik.rs:30-60", "src/ik.rs:215-346", "src/ik.rs:361-384", "src/ik.rs:457-469", "src/funcs.rs:8-90", "src/joint/joint.rs:220-233"]}
{"id": "C94", "title": "Links are where the robot description puts them", "statement": "Load a robot description in which names are used once, joints form no cycle, mimic tags name joints of the robot, limits are in order and axes are not zero. Set any joint positions and update the transforms: the transform stored for a joint takes each point of its child link to the place that the description gives it, which is found by applying the motion of the joint about or along the direction of its axis tag, then roll, pitch, yaw and offset of its origin tag, and so on up through the joints found by the names of the links. This place is unique and depends on the joints above only. Conversely, take the arm that ends in any link and solve for a target under any constraints: if the solver returns Ok, then with the joint positions it left, the place that the description gives to that link is within the tolerances of the target; without constraints its origin is closer than the allowed distance.", "quantifier": "All such descriptions, of any size and shape, all joint positions, links, targets, constraints, solver settings and linear algebra routines, and any memory that the robot is loaded into; exact real arithmetic.", "why_tests_cant": "It compares the whole path from description to result with a second, independent reading of the description; tests fix a few robots and a few positions, and a wrong order of rotations or a wrong parent can cancel for them.", "anchors": ["src/urdf.rs:76-81", "src/urdf.rs:199-320", "src/chain.rs:153-170", "src/chain.rs:373-389", "src/joint/joint.rs:220-245", "src/ik.rs:215-384"]}
{"id": "C95", "title": "Links of a loaded robot are weighed where the description puts them, but drawn one joint too early", "statement": "Load a robot description as in C94 and set any joint positions. If the child links of all joints exist and one link is the root, center_of_mass is the mean over all links of the description, weighted with their masses, of the places that the description gives to the origins of their inertial tags. update_link_transforms, however, places the inertial, the visuals and the collisions of the child link of a joint in the frame above the joint, so that a link does not follow its own joint: a point is where the description puts it if and only if the joint, with its origin tag and at its position, leaves that point alone.", "quantifier": "All descriptions with unique names, without cycles, with ordered limits and non-zero axes, all joint positions, links, and pose tags; any memory that the robot is loaded into; exact real arithmetic.", "why_tests_cant": "The frame error cancels for links whose joint is at zero with an empty origin tag, which is what small test robots have; and the mean over all links needs the order-free comparison of nodes and links.", "anchors": ["src/chain.rs:440-458", "src/funcs.rs:58-76", "src/urdf.rs:83-132", "src/urdf.rs:171-183", "src/urdf.rs:265-320"]}
{"id": "C96", "title": "The order of the tags in a robot description does not matter to its arms", "statement": "Two descriptions that contain the same link and joint tags in different orders, with one base link and with the joints that mimic one joint in the same order, are loaded into corresponding nodes. Programs that make the same calls on corresponding nodes, and do not read child lists, get the same answers: an arm taken from an end joint has the same joints in the same order, and setting positions, solving inverse kinematics and computing transforms on it give the same results, errors and panics. If joints that hang side by side keep their order too, calls that read child lists are covered. The joint position vector of the whole robot does depend on the order, and with several base links so does the link that the root carries.", "quantifier": "All scalar types; all pairs of descriptions with unique names, no cycles, convertible joints and known mimic targets; all permutations; all memories and addresses that the robots are loaded into; all clients over the modelled interface.", "why_tests_cant": "The number of orders grows factorially with the number of tags, and a test with one file sees one order.", "anchors": ["src/urdf.rs:265-320", "src/urdf.rs:285-299", "src/chain.rs:153-157", "src/chain.rs:349-360", "src/chain.rs:380-389", "src/ik.rs:457-469"]}
{"id": "C97", "title": "Robots with mimic tags stand as their tags say", "statement": "Load a robot description as in C94, with any mimic tags, and call set_joint_positions. It returns Ok if and only if the list has one number for each movable joint, each joint without mimic tag reaches the number given for it (it can move and the number is inside its limits), and each joint that mimics one of those reaches multiplier times that number plus offset (1 and 0 where the tag says nothing). Then the joints without tag are where they were told to be, the joints that mimic them where their tags put them, whatever was given for them, all others at zero, and update_transforms puts every link where the description has it with these positions. A joint that mimics a joint with a mimic tag of its own is not moved: its tag is not obeyed.", "quantifier": "All descriptions with unique names, no cycles, known mimic targets, ordered limits and non-zero axes; all lists of numbers; any memory that the robot is loaded into; exact real arithmetic (the refutation in f64).", "why_tests_cant": "Whether a command is accepted depends on all tags and limits at once, and the order in which joints and followers are set could leave a follower at a stale position in only a few of the tag graphs.", "anchors": ["src/urdf.rs:185-196", "src/urdf.rs:265-320", "src/urdf.rs:301-310", "src/chain.rs:349-360", "src/chain.rs:380-389", "src/node.rs:203-224"]}
