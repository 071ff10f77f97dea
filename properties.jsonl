{"id": "C01", "title": "Particle container refines an id-indexed bag", "statement": "After any sequence of insert, create, remove, replace, update and reset calls whose arguments are valid copies, iterating the container yields exactly the particles an id-indexed collection would hold: every inserted/created particle appears with the data last written to it, removed or replaced ones are gone, and size() equals the number of particles iterated.", "quantifier": "every finite sequence of container operations, of any length, with any particle data", "why_tests_cant": "holes, slot reuse and tail removal interact over arbitrarily long histories; tests only run a few hand-picked sequences", "anchors": ["src/include/smash/particles.h: Particles::{insert,create,remove,replace,update,reset,size,begin,end}", "src/particles.cc"]}
{"id": "C02", "title": "Particle ids are unique and never reused within an event", "statement": "Every particle handed out by the container between two resets has an id strictly larger than all ids handed out before, starting at 0 after reset; two particles alive at the same time never share an id.", "quantifier": "every history of container operations between resets", "why_tests_cant": "id reuse would need a specific remove/replace/insert history to show", "anchors": ["src/include/smash/particles.h: Particles::copy_in, id_max_, reset"]}
{"id": "C03", "title": "Stale particle copies are recognised", "statement": "is_valid(copy) is true exactly when the particle that copy was taken from is still in the container in the same slot and has not interacted (id_process unchanged) since the copy was taken; an action holding a copy of a removed, replaced or re-scattered particle is therefore discarded, whatever happened to the slot in between.", "quantifier": "every particle copy taken at any point of any history and every later state", "why_tests_cant": "slot reuse (ABA) depends on the whole history between taking the copy and testing it", "anchors": ["src/include/smash/particles.h: Particles::is_valid", "src/action.cc: Action::is_valid"]}
{"id": "C04", "title": "Iteration never leaves the array or shows a hole", "statement": "begin()..end(), copy_to_vector(), front() and back() only dereference live slots: iteration visits each live particle exactly once in slot order, never visits a removed slot, and never reads past the used part of the array, provided the container holds at least one particle where front/back are used.", "quantifier": "every reachable container state", "why_tests_cant": "needs a specific pattern of holes at the beginning/end", "anchors": ["src/include/smash/particles.h: GenericIterator, begin, end, front, back", "src/particles.cc: copy_to_vector"]}
{"id": "C05", "title": "is_empty() agrees with size()==0", "statement": "is_empty() returns true exactly when size() is 0.", "quantifier": "every reachable container state", "why_tests_cant": "the disagreement needs a removal order that leaves only holes behind", "anchors": ["src/include/smash/particles.h: Particles::is_empty, size"]}
{"id": "C06", "title": "Antiparticle of antiparticle and opposite quantum numbers", "statement": "For every valid code, the antiparticle has opposite charge, baryon number, isospin projection, strangeness, charm and bottomness and the same spin, and taking the antiparticle twice gives the original code.", "quantifier": "all valid PDG codes (all digit combinations, nuclei included)", "why_tests_cant": "hundreds of thousands of codes and a packed bit-field representation", "anchors": ["src/include/smash/pdgcode.h: PdgCode::get_antiparticle, charge, baryon_number, isospin3, strangeness, charmness, bottomness, spin"]}
{"id": "C07", "title": "Charge is an exact integer and obeys Gell-Mann-Nishijima", "statement": "For every hadron code accepted by the constructors the sum of the quark charges is an integer multiple of e, and 2Q = 2I3 + B + S + C + Bottom (+ top) holds between the numbers the interface reports; a nucleus has charge Z (minus Z for antinuclei).", "quantifier": "all valid hadron and nucleus codes", "why_tests_cant": "the implementation divides by 3 with truncation; a non-multiple would be silently truncated for some code", "anchors": ["src/include/smash/pdgcode.h: PdgCode::charge, isospin3, baryon_number, strangeness, charmness, bottomness"]}
{"id": "C08", "title": "Decimal PDG output can be read back", "statement": "from_decimal(get_decimal(c)) is c for every valid code, so a particle written to an output file in decimal notation and read back in is the same particle; distinct codes give distinct decimal numbers.", "quantifier": "all valid codes", "why_tests_cant": "the spin digit carries (n_J>9) and nuclei use different digit layouts", "anchors": ["src/include/smash/pdgcode.h: PdgCode::get_decimal, from_decimal"]}
{"id": "C09", "title": "PDG string output can be read back", "statement": "Reading string() of a valid code gives the same code, for particles, antiparticles and nuclei; strings of the wrong length or with non-digits are rejected with InvalidPdgCode rather than giving a wrong particle.", "quantifier": "all valid codes and all strings", "why_tests_cant": "unbounded input strings; packed representation", "anchors": ["src/include/smash/pdgcode.h: PdgCode::set_from_string, string", "src/pdgcode.cc"]}
{"id": "C10", "title": "Quark content agrees with the reported quantum numbers", "statement": "The three constituents returned by quark_content() contain each flavour with net multiplicity net_quark_number(flavour), their number is 3*|B| (baryons) or a quark-antiquark pair (mesons).", "quantifier": "all valid hadron codes and all flavours", "why_tests_cant": "special cases (11X states, K0_L/K0_S, antiparticles) are spread over the code space", "anchors": ["src/include/smash/pdgcode.h: PdgCode::quark_content, net_quark_number"]}
{"id": "C11", "title": "Accepted codes are physical", "statement": "Every constructor either rejects a code with InvalidPdgCode or yields a code whose spin digit has the right parity for a meson/baryon/other particle, whose antiparticle flag is only set when an antiparticle exists, and whose quark digits are at most 6 - and the integer and string constructors agree on which codes are accepted.", "quantifier": "all 32-bit integers and all strings", "why_tests_cant": "the accept set is huge and the two constructors take different code paths", "anchors": ["src/include/smash/pdgcode.h: PdgCode::set_fields, set_from_string, check, test_code"]}
{"id": "C12", "title": "Particle lookup finds exactly the listed types", "statement": "ParticleType::find(code) returns the type with that code if and only if it is in the particle list, whatever the list; otherwise PdgNotFoundFailure. Duplicate codes in particles.txt are rejected at load.", "quantifier": "all particle lists and all codes", "why_tests_cant": "binary search over a sorted list: correctness depends on the order being total and the list being sorted", "anchors": ["src/particletype.cc: ParticleType::try_find, find, create_type_list", "src/include/smash/pdgcode.h: operator<"]}
{"id": "C13", "title": "Uniform clock partitions the run exactly", "statement": "Ticking a UniformClock from start until it reaches its end visits strictly increasing times, never beyond the end time; the sum of the reported time-step durations is exactly end minus start and the last step is shortened to hit the end.", "quantifier": "all start, step and end times accepted by the constructor, any number of ticks", "why_tests_cant": "rounding drift and the shortened last step depend on the ratio of the numbers", "anchors": ["src/include/smash/clock.h: UniformClock::{current_time,next_time,timestep_duration,operator++}"]}
{"id": "C14", "title": "Clock counters fail loudly instead of overflowing", "statement": "Advancing a clock by ++ or += n never wraps the 64-bit counter: it throws overflow_error first; next_time never reports a wrapped time.", "quantifier": "all counter values and all increments", "why_tests_cant": "needs 2^63 ticks", "anchors": ["src/include/smash/clock.h: Clock::operator++, operator+=, UniformClock::next_time"]}
{"id": "C15", "title": "Changing the time step keeps the current time", "statement": "set_timestep_duration leaves current_time unchanged and only changes the spacing of later ticks; reset(t) for the simulation clock restarts exactly at t with tick count 0, for the output clock at the largest multiple of the output interval not after t.", "quantifier": "all clock states and all new durations", "why_tests_cant": "off-by-one-tick errors show only at particular counters", "anchors": ["src/include/smash/clock.h: UniformClock::set_timestep_duration, reset"]}
{"id": "C16", "title": "Custom output times are visited once, in order", "statement": "A CustomClock with times ts started at t0 reports t0 first, then each listed time greater than t0 exactly once in increasing order, and throws out_of_range afterwards.", "quantifier": "all lists of output times, all start times", "why_tests_cant": "arbitrary unsorted lists with duplicates", "anchors": ["src/include/smash/clock.h: CustomClock"]}
{"id": "C17", "title": "Actions are executed in time order, none lost", "statement": "Popping actions from the scheduler always returns an action with the smallest execution time among those inserted and not yet popped; over any interleaving of inserts and pops no action is lost or duplicated, and pop on an empty scheduler throws.", "quantifier": "every interleaving of insert and pop, with any times including ties", "why_tests_cant": "heap layout depends on the whole insertion history", "anchors": ["src/include/smash/actions.h: Actions::{insert,pop,earliest_time,is_empty,size,clear}"]}
{"id": "C18", "title": "Grid search presents every close pair exactly once (open boundaries)", "statement": "iterate_cells on a non-periodic grid calls back each cell once and each unordered pair of neighbouring cells exactly once, so that every unordered pair of particles whose coordinates differ by less than the cell size in each direction is presented to the collision finders exactly once, and no pair twice.", "quantifier": "all grid sizes, all particle distributions", "why_tests_cant": "border handling depends on the position of the cell in a grid of any size", "anchors": ["src/grid.cc: Grid<GridOptions::Normal>::iterate_cells, Grid::Grid", "src/include/smash/grid.h"]}
{"id": "C19", "title": "Grid search presents every image pair exactly once (periodic box)", "statement": "iterate_cells on a periodic grid presents, for every cell and each of its 26 neighbour displacements (up to reversal), the neighbour exactly once with the search cell shifted by the right multiple of the box length, so particles interacting across the boundary are found exactly once at their true separation.", "quantifier": "all periodic grid sizes of at least 2 in each direction (3 for uniqueness of images)", "why_tests_cant": "wrap-around in several directions at once, small grids", "anchors": ["src/grid.cc: Grid<GridOptions::PeriodicBoundaries>::iterate_cells"]}
{"id": "C20", "title": "Particles are filed in an existing cell and close pairs in adjacent cells", "statement": "Grid construction files every particle (that is formed, or all if unformed ones are included) in exactly one cell inside the array, and two particles closer than the requested cell length in every coordinate end up in the same or adjacent cells.", "quantifier": "all particle distributions, box lengths and strategies (exact arithmetic)", "why_tests_cant": "floor/rescaling interplay at the upper edge of the grid", "anchors": ["src/grid.cc: Grid::Grid, find_min_and_length_impl", "src/include/smash/grid.h: make_index"]}
{"id": "C21", "title": "Lattice indexing is a bijection with correct neighbours", "statement": "index1d is a bijection between in-range cell coordinates and 0..n-1; the index_left/right/up/down/backward/forward functions step by one cell in the named direction, wrap around when periodic and stay put at the border otherwise; cell_center inverts the indexing.", "quantifier": "all lattice sizes and cells", "why_tests_cant": "arbitrary sizes; border cells in each direction", "anchors": ["src/include/smash/lattice.h: RectangularLattice::{index1d,index_left,index_right,index_up,index_down,index_backward,index_forward,cell_center}"]}
{"id": "C22", "title": "Cube iteration touches exactly the cells in range", "statement": "iterate_in_cube(point, r) calls the function for exactly the cells whose centre lies within the half-open cube of half-size r around the point (modulo periodicity), each once as long as the cube is not larger than the lattice, and never addresses a cell outside the lattice.", "quantifier": "all lattices, points and radii", "why_tests_cant": "clipping and modulo arithmetic at all edges", "anchors": ["src/include/smash/lattice.h: RectangularLattice::iterate_in_cube, iterate_in_rectangle, positive_modulo"]}
{"id": "C23", "title": "Lattice gradients are exact for linear fields", "statement": "compute_gradient_lattice on a field that is linear in the cell coordinates gives the exact constant gradient at every cell (central differences inside, one-sided at open borders) and never reads outside the lattice.", "quantifier": "all lattice sizes (at least 2 per direction) and all linear fields", "why_tests_cant": "index offsets at each border", "anchors": ["src/include/smash/lattice.h: RectangularLattice::compute_gradient_lattice"]}
{"id": "C24", "title": "Resizing a lattice keeps it usable", "statement": "After reset_and_resize every cell coordinate accepted by the lattice addresses existing storage.", "quantifier": "all old and new lattice sizes", "why_tests_cant": "only enlarging resizes expose it, and only under a sanitizer", "anchors": ["src/include/smash/lattice.h: RectangularLattice::reset_and_resize"]}
{"id": "C25", "title": "Taking a key returns its value and removes only it", "statement": "take(key) returns the value stored under the key's labels, and afterwards exactly that key (and sections that became empty) is gone: every other key still reads the same value.", "quantifier": "all configuration trees and keys", "why_tests_cant": "recursive pruning of empty sections over arbitrary trees", "anchors": ["src/configuration.cc: Configuration::take, remove_empty_maps", "src/include/smash/configuration.h: Configuration::take"]}
{"id": "C26", "title": "Reading does not change the configuration; setting is seen by reading", "statement": "read leaves the tree unchanged; after set_value(key, v) reading the key gives v and all keys not below/above it are unchanged.", "quantifier": "all trees, keys and values", "why_tests_cant": "arbitrary nesting", "anchors": ["src/include/smash/configuration.h: Configuration::read, set_value", "src/configuration.cc: find_node_creating_it_if_not_existing"]}
{"id": "C27", "title": "Merging gives precedence to the later configuration and loses nothing", "statement": "After merge_yaml every key of the merged-in YAML has the merged-in value, every key of the old configuration not overridden keeps its value, and no other key appears.", "quantifier": "all pairs of trees", "why_tests_cant": "arbitrary nesting and overlaps", "anchors": ["src/configuration.cc: operator|=, merge_yaml"]}
{"id": "C28", "title": "Unused keys are never silently ignored", "statement": "If all keys of a configuration have been taken the configuration is empty at destruction; if any key has not been taken, its destruction reports an error (except while unwinding).", "quantifier": "all trees and all sequences of takes", "why_tests_cant": "depends on arbitrary trees and take orders", "anchors": ["src/configuration.cc: Configuration::~Configuration, take, remove_empty_maps"]}
{"id": "C29", "title": "Extracting a section moves it out completely", "statement": "extract_sub_configuration(section) yields a configuration with exactly the keys of that section (relative labels) and leaves the rest unchanged; together with enclose_into_section it is lossless.", "quantifier": "all trees and section paths", "why_tests_cant": "arbitrary nesting", "anchors": ["src/configuration.cc: extract_sub_configuration, enclose_into_section, extract_complete_sub_configuration"]}
{"id": "C30", "title": "Validation verdict is the worst verdict over all keys", "statement": "validate(true) returns Invalid if any key is invalid, else Deprecated if any is deprecated, else Valid, independent of the order of keys; validate(false) returns Valid exactly in the same cases; and no configuration text makes validation read out of bounds.", "quantifier": "all configuration trees", "why_tests_cant": "order dependence and map-valued keys", "anchors": ["src/configuration.cc: validate, validate_key, accumulate_validation, adjust_list_of_labels_dealing_with_keys_taken_as_maps"]}
{"id": "C31", "title": "SHA-256 equals the standard for every message", "statement": "The hash computed by reset/update/finalize is the FIPS 180-4 SHA-256 digest of the message, for every byte string shorter than 2^61 bytes.", "quantifier": "all messages", "why_tests_cant": "messages of arbitrary length; padding boundary cases", "anchors": ["src/sha256.cc: Context::{reset,update,finalize,transform_function}, calculate"]}
{"id": "C32", "title": "SHA-256 does not depend on how the input is chunked", "statement": "Feeding a message in any number of update calls of any sizes (also empty ones) gives the same digest as feeding it at once.", "quantifier": "all messages and all chunkings", "why_tests_cant": "exponentially many chunkings interacting with the 64-byte buffer", "anchors": ["src/sha256.cc: Context::update"]}
{"id": "C33", "title": "An output file with its final name is always complete", "statement": "A file appears under its final name only after all writes went through and the file was closed, i.e. when the run ends normally; if the process crashes or an exception propagates at any point, the data stays in <name>.unfinished.", "quantifier": "every crash point and every sequence of writes", "why_tests_cant": "every crash point of every history", "anchors": ["src/file.cc: RenamingFilePtr", "src/include/smash/file.h"]}
{"id": "C34", "title": "At most one process holds a file lock", "statement": "Under any interleaving of processes creating, acquiring and releasing FileLocks on the same path, at most one process holds the lock at any time; a process that did not acquire it never removes the lock file of another.", "quantifier": "every interleaving of any number of processes", "why_tests_cant": "races", "anchors": ["src/filelock.cc: FileLock::acquire, ~FileLock", "src/include/smash/filelock.h"]}
{"id": "C35", "title": "Cached integrals are never taken from a half-written or foreign file", "statement": "Any number of concurrent SMASH runs sharing a tabulations directory, each of which may crash at any point: a run only ever uses a cached table that was written completely for the same particle/decay hash.", "quantifier": "every interleaving and crash point of any number of runs", "why_tests_cant": "races and crash points", "anchors": ["src/isoparticletype.cc: cache_integral, tabulate_integrals", "src/tabulation.cc: Tabulation::write, from_file", "src/filelock.cc"]}
{"id": "C36", "title": "Quantum-number bookkeeping is additive and exact", "statement": "The total quantum numbers of a particle list are the sum over the particles, independent of order and grouping; report_deviations is empty exactly when totals agree in every integer quantum number and (within tolerance) in momentum.", "quantifier": "all particle lists", "why_tests_cant": "order/grouping independence over arbitrary lists", "anchors": ["src/include/smash/quantumnumbers.h: QuantumNumbers", "src/quantumnumbers.cc: report_deviations"]}
{"id": "C37", "title": "Performing an action replaces exactly its participants", "statement": "Action::perform replaces the incoming particles by the outgoing ones (keeping them in place for elastic and wall processes), leaves every other particle untouched, invalidates every other pending action that shares an incoming particle, and stamps a process id; if quantum numbers are not conserved by a checked process an exception is raised.", "quantifier": "every container state and every action", "why_tests_cant": "interaction with holes/slot reuse over long histories", "anchors": ["src/action.cc: Action::perform, check_conservation, is_valid, update_incoming"]}
{"id": "C38", "title": "The event loop conserves charges globally", "statement": "Whatever sequence of actions is found and executed, total charge, baryon number, strangeness etc. of the system after any number of executed actions equals the initial one, if every performed action passes its own conservation check.", "quantifier": "every schedule of actions", "why_tests_cant": "arbitrarily many actions in any order", "anchors": ["src/include/smash/experiment.h: Experiment::perform_action, run_time_evolution_timestepless", "src/action.cc: check_conservation"]}
{"id": "C39", "title": "Simulation time never runs backwards", "statement": "In the event loop particles are propagated to non-decreasing times, actions are executed in non-decreasing time order, none later than the end of the time step in which it was found, and outputs are written at the output times in order.", "quantifier": "every set of initial and follow-up actions whose times are not in the past", "why_tests_cant": "follow-up actions are created dynamically", "anchors": ["src/include/smash/experiment.h: run_time_evolution, run_time_evolution_timestepless, propagate_and_shine"]}
{"id": "C40", "title": "numeric_cast is exact or throws", "statement": "numeric_cast<To>(x) either returns a value equal to x or throws; it never returns a changed value.", "quantifier": "all source values for all integer type pairs", "why_tests_cant": "2^64 values", "anchors": ["src/include/smash/numeric_cast.h: numeric_cast"]}
{"id": "C41", "title": "Periodic boundary wrapping", "statement": "enforce_periodic_boundaries moves each coordinate into [0, length) by whole box lengths, reports whether something moved, and is the identity on coordinates inside, for coordinates at most one box length outside.", "quantifier": "all positions with coordinates in [-L, 2L)", "why_tests_cant": "boundary values", "anchors": ["src/include/smash/algorithms.h: enforce_periodic_boundaries", "src/boxmodus.cc: impose_boundary_conditions"]}
{"id": "C42", "title": "Running averages and duplicate merging are exact", "statement": "Average::average equals the arithmetic mean of all added values; dedup_avg returns strictly the distinct runs of x in order with the mean y of each run.", "quantifier": "all lists", "why_tests_cant": "arbitrary lists and run structures", "anchors": ["src/include/smash/average.h: Average, dedup_avg"]}
{"id": "C43", "title": "Channel choice is proportional to weight", "statement": "choose_channel returns a channel of the list with positive weight for every random number in [0, total), and the set of random numbers selecting a channel is an interval whose length is the channel's weight; add_process never changes the relative weights of earlier channels.", "quantifier": "all channel lists and all random numbers", "why_tests_cant": "continuum of random numbers", "anchors": ["src/include/smash/action.h: choose_channel, add_process", "src/include/smash/processbranch.h: total_weight"]}
{"id": "C44", "title": "Lorentz boosts preserve invariants and are invertible", "statement": "For |v|<1, lorentz_boost preserves the Minkowski product of any two four-vectors, boosting back with -v restores the vector, and boosting a time-like momentum with its own velocity gives its rest frame (mass, 0,0,0).", "quantifier": "all four-vectors and velocities (exact arithmetic)", "why_tests_cant": "continuum of inputs", "anchors": ["src/fourvector.cc: FourVector::lorentz_boost", "src/include/smash/fourvector.h", "src/include/smash/threevector.h"]}
{"id": "C45", "title": "Rotations preserve lengths and can be undone", "statement": "ThreeVector::rotate preserves inner products for all Euler angles and rotating with exchanged, negated angles undoes it; rotate_z_axis_to maps the z axis onto the direction of the given vector.", "quantifier": "all vectors and angles (exact arithmetic)", "why_tests_cant": "continuum of inputs", "anchors": ["src/include/smash/threevector.h: rotate, rotate_around_y, rotate_around_z, rotate_z_axis_to"]}
{"id": "C46", "title": "Two-body kinematics is consistent", "statement": "pCM gives the momentum for which two on-shell particles back to back have total energy sqrt(s); plab_from_s and s_from_plab are inverse; every s_from_* helper (fixed target and two beams) equals the invariant mass squared of the beam four-momenta.", "quantifier": "all masses and energies above threshold (exact arithmetic)", "why_tests_cant": "continuum of inputs; asymmetric beams are rarely tested", "anchors": ["src/include/smash/kinematics.h"]}
{"id": "C47", "title": "Linear interpolation reproduces the data", "statement": "InterpolateDataLinear built from any list of points with distinct x (in any order) returns y_i at every x_i, lies between neighbouring values in between, and duplicates are rejected.", "quantifier": "all data sets", "why_tests_cant": "arbitrary unsorted data", "anchors": ["src/include/smash/interpolation.h: InterpolateDataLinear, find_index, generate_sort_permutation, check_duplicates"]}
{"id": "C48", "title": "Tabulations reproduce tabulated values and survive a file round trip", "statement": "get_value_linear returns the tabulated function at the grid points and the linear interpolation between them, 0 below the range; writing a tabulation and reading it back with the same hash gives the same tabulation, with a different hash an empty one.", "quantifier": "all functions, ranges and table sizes", "why_tests_cant": "continuum of arguments; all hashes", "anchors": ["src/tabulation.cc"]}
{"id": "C49", "title": "Binary output can be decoded", "statement": "The byte stream written by the binary outputs (header and particle, interaction and event-end blocks with any accepted list of quantities) can be decoded back to exactly the sequence of blocks and values written; chunked writing gives the same bytes as writing at once.", "quantifier": "all block sequences, all particle lists, all accepted quantity lists", "why_tests_cant": "unbounded streams and all quantity combinations", "anchors": ["src/binaryoutput.cc", "src/include/smash/outputformatter.h: OutputFormatter, write_in_chunk_impl"]}
{"id": "C50", "title": "Quantity lists are validated exactly", "statement": "OutputFormatter accepts a list of quantities exactly if it is non-empty, has no repetition, only known names, and no two aliases of the same quantity; the record then contains exactly one column per requested quantity, in order.", "quantifier": "all lists of strings", "why_tests_cant": "unbounded lists", "anchors": ["src/include/smash/outputformatter.h: OutputFormatter::validate_quantities, append_to_buffer"]}
{"id": "C51", "title": "Comment stripping and trimming of input lines", "statement": "line_parser returns exactly the lines of the input that contain something other than blanks before a '#', with comment and surrounding whitespace removed and correct 1-based line numbers, in order; no returned line is empty.", "quantifier": "all input texts", "why_tests_cant": "unbounded texts", "anchors": ["src/inputfunctions.cc: line_parser", "src/stringfunctions.cc: trim"]}
{"id": "C52", "title": "split and join are inverse", "statement": "join(split(s, d), d) gives s back and split(join(v, d), d) gives v back for field lists without the delimiter.", "quantifier": "all strings and lists", "why_tests_cant": "leading, trailing and consecutive delimiters", "anchors": ["src/stringfunctions.cc: split, join"]}
{"id": "C53", "title": "Wall crossing keeps particles in the box", "statement": "A wall-crossing action found for a particle inside the box happens at the first time its straight trajectory hits a wall, not before; the crossing moves it to the opposite wall and leaves the other coordinates inside the box.", "quantifier": "all positions in the box and all velocities", "why_tests_cant": "continuum; corner cases", "anchors": ["src/wallcrossingaction.cc: WallCrossActionsFinder::find_actions_in_cell"]}
{"id": "C54", "title": "Hypersurface crossing position lies on the hypersurface", "statement": "For a particle that starts below and ends above proper time tau, the crossing point computed lies on its straight trajectory, between start and end, and has proper time exactly tau.", "quantifier": "all trajectories with |v_z|<1", "why_tests_cant": "continuum of inputs", "anchors": ["src/hypersurfacecrossingfinder.cc: crosses_hypersurface, coordinates_on_hypersurface"]}
{"id": "C55", "title": "Straight-line propagation", "statement": "propagate_straight_line puts every particle at the target time on its straight trajectory and changes nothing else; propagating to t1 and then t2 equals propagating to t2 directly; backpropagation inverts it.", "quantifier": "all particle sets and times", "why_tests_cant": "continuum of inputs", "anchors": ["src/propagation.cc"]}
{"id": "C56", "title": "String-end bookkeeping conserves flavour", "statement": "make_string_ends splits a hadron into quark/diquark ends whose quark content is the hadron's (for flavour-diagonal 11X mesons u-ubar or d-dbar); diquark_from_quarks and quarks_from_diquark are inverse up to order; replace_constituent conserves constituents plus remaining excess.", "quantifier": "all hadrons and all random choices", "why_tests_cant": "random choices inside", "anchors": ["src/stringprocess.cc: make_string_ends, diquark_from_quarks, quarks_from_diquark, find_excess_constituent, replace_constituent, rearrange_excess"]}
{"id": "C57", "title": "Closest resonance is selected", "statement": "get_resonance_from_quark returns, among the resonances with matching quantum numbers, one whose pole mass is closest to the given mass.", "quantifier": "all resonance lists and masses", "why_tests_cant": "needs resonances above and below the mass in a specific order", "anchors": ["src/stringprocess.cc: get_resonance_from_quark"]}
{"id": "C58", "title": "Pauli-blocking table interpolation", "statement": "The phase-space density is the linear interpolation of the tabulated weights, i.e. equals the tabulated weight at a table point.", "quantifier": "all tables and distances", "why_tests_cant": "swapped interpolation weights are invisible for slowly varying tables", "anchors": ["src/pauliblocking.cc: phasespace_dens"]}
{"id": "C59", "title": "Partial sort selects the median", "statement": "psort(x, n, k) permutes the array such that x[k] is the k-th smallest element, everything before is not larger and everything after not smaller, and accesses only x[0..n-1].", "quantifier": "all arrays and all k < n", "why_tests_cant": "quickselect behaviour depends on all values", "anchors": ["src/include/smash/lowess.h: lowess::psort"]}
{"id": "C60", "title": "Event list files are read completely", "statement": "In list modus every event contained in the input file is delivered exactly once in order; the end is reported only when no event is left.", "quantifier": "all list files", "why_tests_cant": "depends on number of lines and comment placement", "anchors": ["src/listmodus.cc: next_event_, file_has_events_"]}
{"id": "C61", "title": "Decay-mode angular momentum check uses the right spins", "statement": "A decay mode is accepted only if its orbital angular momentum L lies between the minimum and maximum allowed by the spins of mother and daughters; renormalize makes branching ratios sum to one.", "quantifier": "all mothers, daughters and L", "why_tests_cant": "asymmetric spin combinations", "anchors": ["src/decaymodes.cc: min_angular_momentum, load_decaymodes, renormalize"]}
{"id": "C62", "title": "Conjugated samplers keep the requested difference", "statement": "BesselSampler::sample returns a pair whose difference is exactly the requested one.", "quantifier": "all parameters and all random draws", "why_tests_cant": "random", "anchors": ["src/random.cc: BesselSampler::sample"]}
{"id": "C63", "title": "Isospin multiplets partition the particle types", "statement": "After loading, every particle type belongs to exactly one isospin multiplet, the one named by its name without the charge suffix; multiplet names are unique, no multiplet is empty, and looking up the multiplet of a type returns the one that contains it.", "quantifier": "all particle lists", "why_tests_cant": "depends on the order and naming of all listed particles", "anchors": ["src/isoparticletype.cc: create_multiplet, find, try_find_private, multiplet_name"]}
{"id": "C64", "title": "Discrete density smearing conserves the particle", "statement": "With discrete smearing the weights a particle contributes to its cell and the six neighbouring cells add up to one, so the density integrates to the particle number.", "quantifier": "all lattices, particle positions and central weights", "why_tests_cant": "border cells and periodic wrap-around of any lattice size", "anchors": ["src/include/smash/density.h: update_lattice_with_list_of_particles", "src/include/smash/lattice.h: iterate_nearest_neighbors"]}
{"id": "C65", "title": "Triangular density smearing conserves the particle", "statement": "With triangular smearing the weights a particle contributes to the lattice cells, times the cell volume, add up to one for every position of the particle relative to the cells.", "quantifier": "all lattices, particle positions and ranges", "why_tests_cant": "continuum of positions", "anchors": ["src/include/smash/density.h: update_lattice_with_list_of_particles", "src/include/smash/lattice.h: iterate_in_rectangle"]}
{"id": "C66", "title": "Removing all entries of a section but one keeps exactly that one", "statement": "remove_all_entries_in_section_but_one(key, section) leaves in that section exactly the named entry with its value, leaves everything outside the section unchanged, and throws without any change if the entry does not exist.", "quantifier": "all configuration trees, sections and keys", "why_tests_cant": "arbitrary nesting", "anchors": ["src/configuration.cc: remove_all_entries_in_section_but_one"]}
{"id": "C67", "title": "The list of supported input keys is consistent", "statement": "No two supported input keys have the same labels, no key is at the same time a section of another key, and each key has a status (supported, deprecated, removed).", "quantifier": "all pairs of the documented input keys", "why_tests_cant": "the list has hundreds of entries maintained by hand; the claim is about all pairs", "anchors": ["src/include/smash/input_keys.h: InputKeys::list"]}
{"id": "C68", "title": "The spectral integral used for a pair of resonances is that pair's", "statement": "When a cross section with two resonances is computed, the tabulated spectral integral that enters is the one of exactly that pair, whichever of the two is named first.", "quantifier": "all pairs of resonances and both orders", "why_tests_cant": "depends on how tables are keyed and on the order of incoming particles", "anchors": ["src/isoparticletype.cc: get_integral_RR, tabulate_integrals", "src/crosssections.cc: NNbar_creation, detailed_balance_factor_RR"]}
{"id": "C69", "title": "A particle state takes part in at most one interaction", "statement": "In a run no particle, identified by its id and the process it last took part in, is an incoming particle of two performed interactions (crossing the box wall does not count), even if both were found while the particle still existed.", "quantifier": "every set of found and follow-up actions", "why_tests_cant": "many stale actions with shared participants", "anchors": ["src/include/smash/experiment.h: run_time_evolution_timestepless", "src/action.cc: is_valid", "src/particles.cc"]}
{"id": "C70", "title": "The event loop has no undefined behaviour", "statement": "Whatever actions are found (not in the past, on particles that exist), run_time_evolution never pops an empty queue, never looks up a removed particle, never propagates backwards in time and never writes outside the particle array.", "quantifier": "all action finders, final states and clocks", "why_tests_cant": "all interleavings of found, follow-up and stale actions", "anchors": ["src/include/smash/experiment.h: run_time_evolution, run_time_evolution_timestepless", "src/include/smash/actions.h", "src/particles.cc"]}
{"id": "C71", "title": "The evolution can be interrupted and resumed", "statement": "Calling run_time_evolution up to an intermediate time and then up to the end gives the same particles, interactions and outputs as a single call.", "quantifier": "all intermediate times", "why_tests_cant": "any split of the evolution", "anchors": ["src/include/smash/experiment.h: run_time_evolution"]}
{"id": "C72", "title": "Directions are unit vectors and polar steps follow the meridian", "statement": "Whatever sequence of valid calls set an Angles object, threevec() is a unit vector with the azimuth and polar angle asked for; add_to_theta(d) turns it by exactly d along its meridian (continuing on the other side beyond a pole), rejects |d| > pi, and moving there and back with the returned flag restores the direction.", "quantifier": "all angles and all steps up to pi", "why_tests_cant": "continuum of angles including the poles", "anchors": ["src/include/smash/angles.h: Angles"]}
{"id": "C73", "title": "Comparison of four-vectors is componentwise", "statement": "a < b, a > b, a <= b, a >= b hold exactly if the comparison holds for each of the four components.", "quantifier": "all pairs of four-vectors", "why_tests_cant": "all orderings of the four components, including ties", "anchors": ["src/include/smash/fourvector.h: operator<, operator<=, operator>, operator>="]}
{"id": "C74", "title": "The expansion rate is the one of the documented metric", "statement": "In the expanding-metric modes the Hubble rate used in a time step is a'/a of the documented scale factor a(t), and an expansion step scales positions and momenta by it and leaves every particle on its pole-mass shell.", "quantifier": "all times, rates and modes", "why_tests_cant": "a statement about a derivative at every time", "anchors": ["src/propagation.cc: calc_hubble, expand_space_time", "src/include/smash/input_keys.h: gen_expansionRate, gen_metricType"]}
{"id": "C75", "title": "The interaction point lies between the particles", "statement": "The interaction point of two particles in a periodic box is inside the box and, in each coordinate, midway between nearest periodic images of the two particles at the time of the interaction; without a box it is the mean of the positions.", "quantifier": "all positions, velocities, times and box sizes", "why_tests_cant": "all combinations of periodic images and halves of the box", "anchors": ["src/action.cc: get_interaction_point"]}
{"id": "C76", "title": "Sampled final states conserve energy and momentum and are on shell", "statement": "For every outcome of the random numbers, the momenta sampled for two or more particles add up to the available energy at rest, each particle is on the mass shell asked for, and after the boost they add up to the total momentum; below threshold an exception is thrown.", "quantifier": "all numbers of particles, masses, energies and random draws", "why_tests_cant": "any number of particles and every random draw", "anchors": ["src/action.cc: sample_angles, sample_manybody_phasespace_impl", "src/decayaction.cc: generate_final_state"]}
{"id": "C77", "title": "Formation only increases a particle's cross section and is inherited", "statement": "The cross section scaling factor of a forming particle grows monotonically from its initial value to 1, which it reaches at the formation time; products of an unformed particle form no earlier than that particle and start with its fraction (times their own).", "quantifier": "all times, formation times, powers and sets of participants", "why_tests_cant": "continuum of times and powers, ties between formation times", "anchors": ["src/particledata.cc: xsec_scaling_factor", "src/action.cc: assign_formation_time_to_outgoing_particles"]}
{"id": "C78", "title": "Spin vectors are orthogonal to the momentum", "statement": "The spin four-vector assigned to an unpolarized massive particle is orthogonal to its momentum and has the length of the sampled rest-frame spin.", "quantifier": "all momenta and sampled spins", "why_tests_cant": "continuum of momenta", "anchors": ["src/particledata.cc: set_unpolarized_spin_vector"]}
{"id": "C79", "title": "The collision energy is the one of the beams asked for", "statement": "For each way of giving the beam energy, the collision energies of the nuclei and of a nucleon pair are the invariant masses of the beams described; inputs that describe no beams and zero or several inputs are rejected.", "quantifier": "all nuclei, energies and ways to give them", "why_tests_cant": "all combinations of options, masses and energies", "anchors": ["src/collidermodus.cc: ColliderModus::ColliderModus", "src/include/smash/kinematics.h"]}
{"id": "C80", "title": "Nuclei start with the frame's velocities and touch at time zero", "statement": "In each calculation frame the velocities of the two nuclei give the collision energy and satisfy the frame's condition, and the contracted nuclei start such that their surfaces reach z = 0 at t = 0.", "quantifier": "all frames, energies, masses, radii and displacements", "why_tests_cant": "continuum of energies", "anchors": ["src/collidermodus.cc: get_velocities, initial_conditions"]}
{"id": "C81", "title": "Padding makes text exactly as wide as asked", "statement": "fill_left, fill_right and fill_both pad a text to the requested number of displayed characters (counting every UTF-8 sequence once) by adding the fill character on the documented sides only; a text already wide enough is returned unchanged.", "quantifier": "all UTF-8 texts, widths and fill characters", "why_tests_cant": "all lengths and positions of multi-byte characters", "anchors": ["src/stringfunctions.cc: adjust, make_string, fill_left, fill_right, fill_both", "src/include/smash/stringfunctions.h"]}
{"id": "C82", "title": "Removing a substring removes every occurrence and nothing else", "statement": "remove_substr ends and leaves a text without the pattern, obtained by deleting occurrences only; isoclean removes exactly the charge marks of a particle name.", "quantifier": "all texts and patterns", "why_tests_cant": "patterns that appear again after a removal", "anchors": ["src/stringfunctions.cc: remove_substr, isoclean"]}
{"id": "C83", "title": "Flavour restoration of a string process ends and is exact", "statement": "After Pythia has replaced the incoming hadrons by mapped ones, the replacement of constituents and the splitting of gluons end for every parton record and every random choice, and they either report failure or leave partons whose net number of quarks of every flavour is that of the real incoming hadrons.", "quantifier": "all hadron pairs, all parton records, all random choices", "why_tests_cant": "the loop depends on the record and on random choices without bound", "anchors": ["src/stringprocess.cc: restore_constituent, splitting_gluon_qqbar, rearrange_excess, find_total_number_constituent, replace_constituent"]}
{"id": "C84", "title": "Baryon-antibaryon annihilation keeps the flavour", "statement": "The two strings of a baryon-antibaryon annihilation carry together exactly the net flavour of the two incoming hadrons, whichever pair is annihilated and however the rest is ordered.", "quantifier": "all baryons and antibaryons, all random choices", "why_tests_cant": "random choices and all flavour combinations", "anchors": ["src/stringprocess.cc: next_BBbarAnn"]}
{"id": "C85", "title": "Partons are grouped into colour-singlet strings", "statement": "Tracing colours takes a colour-singlet parton record apart completely into strings, each of which is a colour singlet by itself, losing and inventing no parton.", "quantifier": "all colour-singlet records without junctions, all random choices", "why_tests_cant": "records of any length and colour flow", "anchors": ["src/stringprocess.cc: compose_string_parton, find_forward_string"]}
{"id": "C86", "title": "Leading hadrons of a string get the factors of the valence quarks they carry", "statement": "The two hadrons closest to the ends of a string that can carry its valence quarks get 1/2 (meson), 1/3 or 2/3 (baryon with one or two of them) times the suppression factor and all others get zero, without any access outside the list.", "quantifier": "all hadron lists of at least two hadrons and baryon number -1, 0 or 1, all orders", "why_tests_cant": "every order of mesons, baryons and antibaryons", "anchors": ["src/stringprocess.cc: find_leading, assign_scaling_factor, assign_all_scaling_factors, append_final_state"]}
{"id": "C87", "title": "The last two hadrons of a string share its momentum exactly", "statement": "When a string breaks into its last two hadrons, their lightcone momenta are positive, add up to those of the string, and put each hadron on its transverse mass shell; this succeeds exactly if the string is heavier than the two transverse masses.", "quantifier": "all lightcone momenta, transverse masses and random choices", "why_tests_cant": "continuous kinematics", "anchors": ["src/stringprocess.cc: make_lightcone_final_two"]}
{"id": "C88", "title": "Shifting rapidities keeps masses and transverse momenta", "statement": "The rapidity shift of a fragmented string changes every rapidity to factor*y+diff, keeps every mass and transverse momentum, and for factor one acts as a boost of the whole string along its axis.", "quantifier": "all events, axes, factors and shifts", "why_tests_cant": "continuous kinematics and any number of hadrons", "anchors": ["src/include/smash/stringprocess.h: shift_rapidity_event"]}
{"id": "C89", "title": "Rescaling the partons restores the energy", "statement": "After flavour restoration the parton momenta are multiplied by a common factor until the total energy is the initial one to a relative accuracy of 1e-6; masses and mass shells are kept and the procedure ends.", "quantifier": "all parton records and initial energies", "why_tests_cant": "an iteration with no bound on the number of rounds", "anchors": ["src/stringprocess.cc: restore_constituent"]}
{"id": "C90", "title": "The Bessel sampler tabulates the right distribution", "statement": "The probabilities tabulated for the smaller multiplicity are proportional to (a/2)^(2N+nu)/(N!(N+nu)!), the ratio of Bessel functions used for its mean is accurate for every parameter, and sampled multiplicities are never negative.", "quantifier": "all parameters and all random draws", "why_tests_cant": "infinite parameter range, converging continued fraction", "anchors": ["src/random.cc: BesselSampler::BesselSampler, BesselSampler::sample, BesselSampler::r_"]}
{"id": "C91", "title": "Decay sections give every mother state consistent modes", "statement": "Every mode of a particle follows from a line of its section, conserves charge, and adding a line raises only the weight of its own final state; antiparticles get exactly the conjugate modes with the same weights.", "quantifier": "all sections of a decay file, all multiplets", "why_tests_cant": "any number of lines, states and orders of daughters", "anchors": ["src/decaymodes.cc: DecayModes::add_mode, DecayModes::load_decaymodes"]}
{"id": "C92", "title": "The geometric collision time is the time of closest approach", "statement": "The time until the collision reported for two particles is the one at which their straight-line trajectories in the computational frame are closest; it does not depend on their order, and particles that approach each other always get one.", "quantifier": "all positions and momenta", "why_tests_cant": "continuum of trajectories; a minimum over all times", "anchors": ["src/include/smash/scatteractionsfinder.h: ScatterActionsFinder::collision_time"]}
{"id": "C93", "title": "The transverse distance is the smallest distance in the centre-of-mass frame", "statement": "The squared distance compared with the cross section is the smallest distance the two particles have at any common time of their centre-of-mass frame. It is the same in every frame, for either order of the particles and for both ways of computing it.", "quantifier": "all positions and momenta, all boosts", "why_tests_cant": "continuum of trajectories and frames", "anchors": ["src/scatteraction.cc: ScatterAction::transverse_distance_sqr, ScatterAction::cov_transverse_distance_sqr"]}
{"id": "C94", "title": "Covariant collision times belong to the closest approach in the centre-of-mass frame", "statement": "With the covariant criterion the collision happens at the mean of the two times at which the particles reach their points of closest approach, which are simultaneous in their centre-of-mass frame.", "quantifier": "all positions and momenta", "why_tests_cant": "continuum of trajectories", "anchors": ["src/include/smash/scatteractionsfinder.h: ScatterActionsFinder::collision_time"]}
{"id": "C95", "title": "A pair collides exactly if the criterion says so", "statement": "Two particles collide within a step exactly if the collision time falls into it, they did not just collide with each other, they are not unscattered nucleons of the same nucleus, and pi d^2 is below the cross section scaled by test particles and formation; or, stochastically, with probability sigma v_rel dt / V with the Moller velocity. The quick rejection of distant pairs drops no collision, and the order of the pair does not matter.", "quantifier": "all pairs, cross sections, criteria and random draws", "why_tests_cant": "continuum of states and draws", "anchors": ["src/scatteractionsfinder.cc: ScatterActionsFinder::check_collision_two_part", "src/scatteraction.cc: ScatterAction::relative_velocity", "src/include/smash/scatteractionsfinder.h: max_transverse_distance_sqr"]}
{"id": "C96", "title": "Every candidate for a collision is checked exactly once", "statement": "Within a cell every pair, and if enabled every triple, quadruple and pion quintuple, is checked once; between neighbouring cells every pair once; the products of an action are checked once against every other particle and never against each other.", "quantifier": "all lists of particles with distinct ids, all settings of multi-particle reactions", "why_tests_cant": "any number of particles in any order", "anchors": ["src/scatteractionsfinder.cc: find_actions_in_cell, find_actions_with_neighbors, find_actions_with_surrounding_particles"]}
{"id": "C97", "title": "Decay widths depend on the mass as documented", "statement": "The width of every mode equals the given one at the pole mass of the mother, vanishes at and below the threshold, is never negative, and for stable daughters grows strictly with the mass. The Blatt-Weisskopf factors lie between 0 and 1, grow with the momentum, approach 1 for large momenta and go like p^(2L) for small ones, for every angular momentum L; the form factor for unstable daughters is 1 at pole and threshold, suppresses larger and enhances smaller masses. The total width at the pole mass is the width of the particle.", "quantifier": "all masses, angular momenta and sets of modes", "why_tests_cant": "continuum of masses, every angular momentum", "anchors": ["src/include/smash/formfactors.h: blatt_weisskopf_sqr, post_ff_sqr", "src/decaytype.cc: TwoBodyDecayStable::width, TwoBodyDecayDilepton::width", "src/particletype.cc: ParticleType::total_width, ParticleType::partial_width"]}
{"id": "C98", "title": "Exponential decay law, however time is divided into steps", "statement": "A resonance survives a time t after its formation with probability exp(-t Gamma m / (E hbar c f)), Gamma being its width at its mass, E/m the time dilation and f the configured factor, independently of how t is divided into time steps; it does not decay before it is formed; a decay found in a step lies in that step; stable particles, closed ones and (if configured) unscattered ones never decay.", "quantifier": "all sequences of steps, momenta, widths, formation times and random draws", "why_tests_cant": "any sequence of steps and draws", "anchors": ["src/decayactionsfinder.cc: DecayActionsFinder::find_actions_in_cell", "src/include/smash/random.h: exponential"]}
{"id": "C99", "title": "Channels are chosen in proportion to their weights", "statement": "Each open channel is chosen exactly for an interval of the random number whose length is its weight; closed channels are never chosen; with at least one channel a choice is always made.", "quantifier": "all lists of channels and all draws", "why_tests_cant": "any number of channels, continuum of draws", "anchors": ["src/include/smash/action.h: choose_channel, add_processes", "src/particletype.cc: ParticleType::get_partial_widths"]}
{"id": "C100", "title": "Final decays leave nothing undecayed", "statement": "At the end of an event all particles that have to decay (according to the configuration) are decayed, with their products, until none is left; particles that need not decay are untouched; conserved charges stay the same; the loop ends and the run is never aborted.", "quantifier": "all final particle lists, decay tables, configurations and draws", "why_tests_cant": "chains of any length, any decay table", "anchors": ["src/include/smash/experiment.h: do_final_interactions", "src/decayactionsfinder.cc: DecayActionsFinder::find_final_actions", "src/decayaction.cc: DecayAction::sample_outgoing_particles"]}
{"id": "C101", "title": "Energy-momentum tensor and Landau frame", "statement": "The tensor accumulated from particles is the sum of p^mu p^nu / p^0 with its weights, is symmetric in its indices, and transforms like the momenta under boosts. For positive-energy particles of which one is massive, the Landau velocity returned is the only future-directed unit eigenvector: in its rest frame there is no energy flow and the energy density is the largest eigenvalue, which is positive.", "quantifier": "all lists of particle momenta and weights, all boost velocities, all orders of the eigenpairs", "why_tests_cant": "any number of particles, continuum of momenta", "anchors": ["src/energymomentumtensor.cc: EnergyMomentumTensor::add_particle, boosted, landau_frame_4velocity", "src/include/smash/energymomentumtensor.h: tmn_index"]}
{"id": "C102", "title": "Dilepton shining weights add up to the dilepton yield", "statement": "What a resonance shines during its life is its life time in its rest frame times the partial width, however the time is divided into steps; the weight at the end is the branching fraction; and every particle present at the end or produced in the final decays shines exactly once.", "quantifier": "all sequences of time steps, decay tables, particle lists, configurations and draws", "why_tests_cant": "any division of time, any number of particles and decay chains", "anchors": ["src/decayactionsfinderdilepton.cc: DecayActionsFinderDilepton::shine, shine_final", "src/include/smash/experiment.h: propagate_and_shine, do_final_interactions"]}
{"id": "C103", "title": "Dalitz decays conserve energy and momentum", "statement": "A decay into a hadron or photon and a lepton pair conserves energy and momentum, puts every product on its mass shell, wherever the non-lepton stands in the list, and gives the pair the mass drawn, which covers exactly the range from the lepton threshold to what the third particle leaves. Decays with another number of products or without a non-lepton are refused.", "quantifier": "all masses above threshold, orders of the products, draws and directions", "why_tests_cant": "continuum of masses and angles", "anchors": ["src/decayactiondilepton.cc: DecayActionDilepton::sample_manybody_phasespace"]}
{"id": "C104", "title": "A nucleus is prepared at rest, centred, and without net momentum", "statement": "Before an event a nucleus contains (number) x (test particles) particles of every species. After arranging, all are at time zero and at rest, their mean position is the origin, and distances are those of the sampled positions. Fermi motion changes momenta only: protons and neutrons stay on their mass shell and have no total momentum. The boost is the Lorentz transformation of the momenta with the positions contracted, and after the shift the mean position is where the collision setup wants it, at the common start time, without transverse momentum.", "quantifier": "all particle lists, sampled positions and momenta, Euler angles, beam velocities and offsets", "why_tests_cant": "any number of nucleons, continuum of positions, angles and velocities", "anchors": ["src/nucleus.cc: Nucleus::fill_from_list, arrange_nucleons, rotate, generate_fermi_momenta, boost, shift", "src/include/smash/nucleus.h: align_center, number_of_protons"]}
{"id": "C105", "title": "Nucleon positions follow the Woods-Saxon distribution exactly", "statement": "The four-branch sampling with rejection returns radii whose probability density is proportional to r^2/(exp((r - R)/d) + 1); radii are finite and not negative; with zero diffusiveness the nucleons are uniform in the sphere.", "quantifier": "all radii and diffusiveness values, all random draws", "why_tests_cant": "a statement about a distribution over a continuum of draws", "anchors": ["src/nucleus.cc: Nucleus::distribute_nucleon"]}
{"id": "C106", "title": "Nuclei from a file are read in turn", "statement": "With an input file of nucleon configurations, event after event gets the next nucleus of the file, from the beginning again after the last; every line of the file is used; a nucleus with wrong numbers of protons or neutrons is refused.", "quantifier": "all files, numbers of protons and neutrons and numbers of events", "why_tests_cant": "any file length and number of events; end-of-file states", "anchors": ["src/customnucleus.cc: CustomNucleus::readfile"]}
{"id": "C107", "title": "Reactions of three, four and five particles", "statement": "With multi-particle reactions switched on, a group of three, four or five particles is offered exactly the documented reactions (pions to omega, phi and eta', formation of light nuclei with a nucleon or pion as catalyst, five pions to nucleon and antinucleon), each once and whatever the order of the particles; every reaction conserves charge, baryon number, strangeness and four-momentum; its weight carries the factor of detailed balance for identical particles and spins; looking for reactions never fails.", "quantifier": "all groups of particles, all sets of known species and of switched-on reactions, all momenta", "why_tests_cant": "all orders and combinations of species; the combinatorics is written out by hand in the code", "anchors": ["src/scatteractionmulti.cc: ScatterActionMulti::add_possible_reactions, generate_final_state, parametrizaton_phi4, three_different_pions, two_pions_eta", "src/include/smash/scatteractionmulti.h: react_degen_factor", "src/include/smash/pdgcode.h: nucleus_p, nucleus_n, nucleus_La"]}
{"id": "C108", "title": "Thermalization conserves quantum numbers and momentum", "statement": "When hot cells are thermalized, the sampled hadrons carry exactly the baryon number, strangeness and charge of the particles they replace, whatever is drawn, with each of the sampling methods; cells and species are chosen with the probability of their yields and satisfy the condition of the sampling step; the momenta are adjusted so that every particle is on its mass shell and the total four-momentum is the required one within the stated accuracy.", "quantifier": "all hadron gases, cell contents, required totals and sequences of random draws", "why_tests_cant": "unbounded sequences of draws; rejection loops; bisection over reals", "anchors": ["src/grandcan_thermalizer.cc: GrandCanThermalizer::thermalize_mode_algo, thermalize_BF_algo, sample_multinomial, renormalize_momenta, sample_in_random_cell_BF_algo", "src/include/smash/grandcan_thermalizer.h: sample_in_random_cell_mode_algo, get_class"]}
{"id": "C109", "title": "Thermalization happens once per period and replaces the hot particles", "statement": "Thermalization takes place in exactly one time step of each period after the start time, and replaces exactly the particles in cells above the critical energy density, provided there are more than 30.", "quantifier": "all start times, periods, step lengths, times, particle lists and energy densities", "why_tests_cant": "all times and steps", "anchors": ["src/include/smash/grandcan_thermalizer.h: GrandCanThermalizer::is_time_to_thermalize", "src/grandcan_thermalizer.cc: GrandCanThermalizer::thermalize"]}
{"id": "C110", "title": "Two-particle reactions conserve charge, baryon number and strangeness", "statement": "Every reaction offered for two colliding hadrons or nuclei (resonance formation, strangeness production and exchange, charge exchange, excitation of nucleons, absorption of resonances, break-up and excitation of nuclei, annihilation) has in its final state the total charge, baryon number and strangeness of the initial one; drawing up the list never ends with an exception.", "quantifier": "all pairs of species in either order, all lists of known species, all energies, switches and parametrised values", "why_tests_cant": "all combinations of species; several hundred hand-written cases in nested switches", "anchors": ["src/crosssections.cc: CrossSections::npi_yk, nk_xx, deltak_xx, ypi_xx, nn_xx, bar_bar_to_nuc_nuc, dpi_xx, dn_xx, two_to_one, two_to_three, two_to_four, NNbar_annihilation, NNbar_creation, NNbar_to_5pi", "src/particletype.cc: list_possible_resonances", "src/parametrizations.cc: KaonNucleonRatios::get_ratio"]}
{"id": "C111", "title": "Cross sections respect charge conjugation, isospin and the order of the particles", "statement": "Replacing all particles by antiparticles, or exchanging up and down quarks, gives the reactions with replaced species and the same cross sections; the order in which the two particles are given does not matter; the pion-nucleon to kaon-Sigma channels follow from two isospin amplitudes.", "quantifier": "all pairs of species concerned, all energies and values of the parametrisations", "why_tests_cant": "relates hundreds of hand-written cases to each other for all values", "anchors": ["src/crosssections.cc: CrossSections::npi_yk, nk_xx, deltak_xx, ypi_xx, npi_el, nk_el, parametrized_total, high_energy, string_probability"]}
{"id": "C112", "title": "Inverse reactions obey detailed balance", "statement": "For antikaon-nucleon to pion-hyperon, kaon-nucleon to kaon-Delta, kaon-nucleon charge exchange and nucleon-nucleon to two baryons or deuteron and pion, the cross section of the inverse reaction is the one of detailed balance: cross section times spin degeneracies times squared momentum (or the mass integral of the resonance) is the same in both directions, with the symmetry factor for identical multiplets.", "quantifier": "all species of these reactions, all energies, masses, degeneracies and parametrised values", "why_tests_cant": "an equation for all energies and masses between separately written functions", "anchors": ["src/crosssections.cc: detailed_balance_factor_stable, detailed_balance_factor_RK, CrossSections::nk_xx, ypi_xx, deltak_xx, find_nn_xsection_from_type, bar_bar_to_nuc_nuc"]}
{"id": "C113", "title": "Partial cross sections add up to the total", "statement": "The string sub-processes have non-negative cross sections which add up to the string cross section; the probability of strings is between 0 and 1 and grows with energy over the transition region; the channels of a collision are non-negative and add up to elastic plus the mixture of strings and low-energy channels with this probability, raised to the nucleon-antinucleon total in the resonance treatment.", "quantifier": "all cross sections, energies, probabilities and settings", "why_tests_cant": "real-valued quantities; all settings at once", "anchors": ["src/crosssections.cc: CrossSections::generate_collision_list, string_excitation, string_probability, probability_transit_high"]}
{"id": "C114", "title": "Isospin factors are those of the Clebsch-Gordan series", "statement": "The total isospins considered in a reaction are exactly those the multiplets of both pairs can couple to with the right third component, each once; the factor of a reaction is the sum over them of the products of two squared coefficients, is the same for the inverse reaction, and equals the sum of the per-isospin parts the cross sections treat separately; the factor of a three-body decay is defined exactly when the intermediate isospin is unique; every coefficient returned equals the Clebsch-Gordan coefficient, sign included, to 3e-15, whatever was asked for before.", "quantifier": "all isospins and third components, all coefficient functions, all histories of calls", "why_tests_cant": "all histories of a memoised table; an infinite family of isospins; correctness of 189 literals against a closed formula", "anchors": ["src/include/smash/clebschgordan.h: I_tot_range, isospin_clebsch_gordan_sqr_2to1", "src/clebschgordan.cc: isospin_clebsch_gordan_sqr_3to1, isospin_clebsch_gordan_sqr_2to2", "src/clebschgordan_lookup.cc: ClebschGordan::coefficient, calculate_coefficient", "src/include/smash/clebschgordan_lookup.h: lookup_table, ThreeSpinHash"]}
{"id": "C115", "title": "Fluidization picks exactly the particles that are due", "statement": "In a time step exactly the particles that lie inside the lattice region where the energy density (or the pure parametrisation) exceeds the threshold, whose last process is among the configured ones and that are not already core, become part of the fluid, within the step and not before the required fraction of their formation time; being fluidized changes nothing else about them; the lattice used is that of the current step and reaches out to the light cone.", "quantifier": "all particle lists, densities, configurations, random offsets, and all sequences of time steps of at most 5 fm", "why_tests_cant": "all densities and histories of time steps", "anchors": ["src/dynamicfluidfinder.cc: DynamicFluidizationFinder::find_actions_in_cell, above_threshold, is_process_fluidizable, build_fluidization_lattice", "src/fluidizationaction.cc: FluidizationAction::generate_final_state, check_conservation", "src/collidermodus.cc: ColliderModus::build_fluidization_lattice"]}
{"id": "C116", "title": "The end of an event keeps the corona", "statement": "When an event with a fluid ends, exactly the core particles disappear; spectators and particles that have just interacted stay as they are; every other particle appears exactly once, on its own world line with its own momentum shortly after its last interaction; hence charges and four-momentum outside the core are unchanged; the loop ends after three passes whatever the order in which simultaneous actions are handed out.", "quantifier": "all particle lists with distinct ids, all orders of the action queue", "why_tests_cant": "all orders of simultaneous actions and all particle lists", "anchors": ["src/include/smash/experiment.h: Experiment::do_final_interactions", "src/dynamicfluidfinder.cc: find_final_actions", "src/include/smash/freeforallaction.h: FreeforallAction"]}
{"id": "C117", "title": "A run consists of whole events and stops when asked", "statement": "A run performs events 0, 1, 2, ... each giving every output exactly one complete block (a start and an end for each ensemble in order, complete groups of intermediate outputs in between, none for dilepton, photon and initial-condition outputs); it stops after the requested number of events, or at the first event at which enough ensembles had a projectile-target interaction, or at the greatest number of events, which is the allowed number of ensembles divided by the ensembles per event, rounded up exactly; an end block says 'empty' exactly if no projectile nucleon interacted with a target nucleon; every seed printed can be entered again and reproduces its event.", "quantifier": "all configurations, numbers of ensembles, histories of interactions, outputs, seeds and random engines", "why_tests_cant": "ranges over all histories of events", "anchors": ["src/include/smash/experiment.h: Experiment::run, is_finished, count_nonempty_ensembles, initialize_new_event, intermediate_output, final_output, perform_action", "src/random.cc: generate_63bit_seed", "src/experiment.cc: fill_event_info"]}
{"id": "C118", "title": "Boxes and spheres are filled as configured", "statement": "Initial conditions of a box or a sphere hold every configured species with its multiplicity times the number of test particles, each inside the volume (uniformly), at the start time, on its mass shell, with vanishing total three-momentum apart from that of a single jet; two back-to-back jets are separated by the configured distance and add no momentum; radial flow gives a particle at rest the velocity u0 (r/R)^n outwards.", "quantifier": "all configurations, numbers of particles and random draws", "why_tests_cant": "all multiplicities and draws; the total is a sum over arbitrarily many particles", "anchors": ["src/boxmodus.cc: BoxModus::initial_conditions", "src/spheremodus.cc: SphereModus::initial_conditions, SphereModus::SphereModus"]}
{"id": "C119", "title": "Momentum samplers follow their distributions", "statement": "A round of the thermal sampler keeps a momentum of at most X with a probability proportional to the integral of p^2 exp(-E/T) from 0 to X; the same for the non-equilibrium samplers and for Bose, Fermi and Boltzmann statistics with their own densities; the envelope used for rejection is an upper bound; the maximum found for the quantum distributions is the maximum; line shapes peak at the pole with the configured width and normalisation.", "quantifier": "all temperatures, masses, chemical potentials and momenta", "why_tests_cant": "a statement about probabilities and about the supremum over all momenta; statistics of a finite sample cannot show it", "anchors": ["src/distributions.cc: sample_momenta_from_thermal, sample_momenta_IC_ES, sample_momenta_non_eq_mass, sample_momenta_1M_IC, sample_momenta_2M_IC, breit_wigner, cauchy, juttner_distribution_func", "src/quantumsampling.cc: QuantumSampling::sample, p_max_root_equation"]}
{"id": "C120", "title": "Numbers in text output can be read back", "statement": "The text a double is converted to is a decimal numeral without blanks whose value differs from the double by at most half a unit of the last of six (times, positions and momenta in the compact columns) or nine significant digits; it always fits the buffer it is written to.", "quantifier": "all finite doubles", "why_tests_cant": "2^64 doubles; the length of the text depends on sign, exponent and rounding", "anchors": ["src/include/smash/outputformatter.h: ToASCII::as_double, ToASCII::as_precise_double"]}
{"id": "C121", "title": "OSCAR text files can be decoded", "statement": "A reader that knows only the documented format - header, block lines that announce the number of particle lines, event-end lines - recovers from any OSCAR2013, OSCAR2013Extended, OSCAR1999 or ASCII file exactly the sequence of particle lists, interactions and event ends the run reported for this content, with event and ensemble numbers, counts and every column of every particle: integers exactly, momenta to nine and other numbers to six digits. With the documented formats, contents and quantities writing never fails.", "quantifier": "all sequences of events, interactions and particle lists; all accepted lists of quantities; all contents and formats", "why_tests_cant": "files are arbitrarily long and columns arbitrary; a wrong count or a separator inside a field only shows up for some values", "anchors": ["src/oscaroutput.cc: OscarOutput, create_oscar_output", "src/include/smash/outputformatter.h: OutputFormatter, ToASCII, write_in_chunk"]}
{"id": "C122", "title": "Densities are conserved, covariant and normalised", "statement": "The current found at a point is the sum over the particles of charge times a cut-off Gaussian of the distance in the particle's rest frame times the four-velocity. The Gaussian integrates to one over the number of test particles and ensembles. The derivatives returned with the current are its derivatives in space and, for freely moving particles, in time; the continuity equation holds; gradient and curl are those of the current. The current is a four-vector and the density a Lorentz scalar. Exchanging particles and antiparticles flips the sign of net densities. A lattice node holds what the direct calculation gives at its centre.", "quantifier": "all lists of particles, points, velocities of the observer, density types and smearing parameters", "why_tests_cant": "a statement about derivatives, integrals and all frames; a test compares single numbers", "anchors": ["src/density.cc: density_factor, unnormalized_smearing_factor, current_eckart", "src/include/smash/density.h: DensityParameters, DensityOnLattice, update_lattice_accumulating_ensembles, update_lattice_with_list_of_particles"]}
{"id": "C123", "title": "Forces are minus the gradient of the potentials", "statement": "A baryon in matter at rest is pushed by minus the gradient of its potential energy; the Skyrme and symmetry forces carry the derivatives of the corresponding potentials, the force of the vector-density-functional potential is that of the four-potential (chain rule); antibaryons feel the opposite of what baryons feel at the same place; mesons feel nothing; strange baryons feel the share of their light quarks. The momentum-dependent potential is the documented integral over the Fermi sphere, and the energy found for a particle solves the energy equation in the local rest frame; the search for it ends. In a time step each particle is pushed by its own force, taken from the lattices where they reach and otherwise from all particles before the step; it keeps identity, place and mass; particles that feel nothing are not touched; a warning is given exactly when a momentum changes too fast. The Coulomb field is minus the gradient of the Coulomb potential of the charges within the cut.", "quantifier": "all configurations of the potentials, particle lists, ensembles, positions, momenta, lattices and time steps", "why_tests_cant": "a statement about derivatives and integrals, and about loops over arbitrarily many particles that carry variables along", "anchors": ["src/potentials.cc: skyrme_pot, symmetry_pot, vdf_pot, potential, force_scale, skyrme_force, symmetry_force, vdf_force, all_forces", "src/include/smash/potentials.h: momentum_dependent_part, root_eq_potentials, calculation_frame_energy, single_particle_energy_gradient, E_field_integrand, B_field_integrand", "src/propagation.cc: update_momenta"]}
{"id": "C124", "title": "Deformed and clustered nuclei, orientations and impact parameters have the requested distributions", "statement": "The deformation functions are orthonormal spherical harmonics. The nucleons of a deformed nucleus are distributed with the deformed Woods-Saxon density, which is the spherical one without deformation; automatic parameters exist exactly for the tabulated nuclei. A random orientation is uniform on the sphere, fixed angles and random orientation exclude each other. The centres of alpha clusters form a regular tetrahedron with the given edge around the origin, and in every event every cluster gets two protons and two neutrons per test particle. A fixed impact parameter is used as given; quadratic, uniform and custom sampling stay in the range and have a density proportional to b, constant, and proportional to the interpolated yields; bad lists are refused.", "quantifier": "all shapes, angles, side lengths, numbers of test particles, configurations of the impact parameter, random draws", "why_tests_cant": "a statement about probability distributions and integrals over the sphere; samples only give frequencies", "anchors": ["src/deformednucleus.cc: distribute_nucleon, nucleon_density, y_l_m, set_deformation_parameters_automatic", "src/alphaclusterednucleus.cc: distribute_nucleon, scale_tetrahedron_vertex_positions", "src/nucleus.cc: set_orientation_from_config, random_euler_angles", "src/collidermodus.cc: ColliderModus, sample_impact"]}
{"id": "C125", "title": "The final state of a two-particle scattering conserves momentum, has the documented angular distribution and the requested weights", "statement": "Whatever process is chosen and whatever is drawn, the outgoing momenta add up to the incoming ones and every outgoing particle has the mass it should have; elastic scattering keeps the particles where they are, every other process puts the products at the interaction point, passes on the core flag and multiplies the weights of heavy flavour; impossible processes are refused. The momentum transfer is the one drawn and lies in the allowed range; its density is the documented one for nucleon-nucleon elastic scattering, Delta and resonance production, everything else is isotropic. Failed strings fall back to annihilation or double diffraction and then to scattering. With a parametrised total the processes keep their ratios and add up to it, a pseudoresonance fills the gap; a process is chosen with its share and choosing never fails; processes are added only once.", "quantifier": "all species, momenta, processes, cross sections, configurations and random draws", "why_tests_cant": "conservation for every momentum and process, probability densities, and a loop of ten thousand tries are beyond samples", "anchors": ["src/scatteraction.cc: generate_final_state, sample_angles, elastic_scattering, inelastic_scattering, two_to_many_scattering, resonance_formation, string_excitation, spin_interaction, add_all_scatterings, rescale_outgoing_branches, try_find_pseudoresonance, get_total_weight", "src/include/smash/random.h: expo, power", "src/particledata.cc: effective_mass"]}
{"id": "C126", "title": "Direct photons and bremsstrahlung come from the right pairs, conserve momentum, and their weights add up to the ratio of cross sections", "statement": "A photon accompanies a pair of mesons exactly if it is one of the documented pairs, in either order; the hadron that comes with it carries the charge of the pair. Whatever is drawn, hadron and photon (or two pions and a photon) are on their mass shells and carry the total momentum; the momentum transfer is uniform in its kinematic range and is that of the final state. Bremsstrahlung keeps the total charge, chooses final states by their share and takes all cross sections from matching tables. The weights are not negative and on average add up to photon over hadronic cross section, in every frame.", "quantifier": "all pairs of PDG codes, momenta, masses, cross sections, numbers of fractional photons and random draws", "why_tests_cant": "conservation for every momentum, a mean over continuous draws, and frame independence cannot be read off samples", "anchors": ["src/scatteractionphoton.cc: photon_reaction_type, outgoing_hadron_type, is_kinematically_possible, generate_final_state, total_cross_section_w_ff, diff_cross_section_w_ff, form_factor_pion", "src/bremsstrahlungaction.cc: bremsstrahlung_reaction_type, generate_final_state, sample_3body_phasespace, brems_cross_sections, brems_diff_cross_sections", "src/include/smash/pdgcode_constants.h: pack"]}
{"id": "C127", "title": "The HepMC record of an event is the history of the event: right final particles, one vertex per interaction, no cycles, momentum conserved", "statement": "Whatever sequence of interactions an event consists of, the full HepMC record can be written, the particles marked final are exactly those that exist at the end, each interaction has one vertex in the order of the history with its incoming and outgoing particles, status codes tell which process used up a particle, no particle ends before it begins, and every vertex conserves momentum if the interactions do. Colliding nuclei enter the interaction point with their total momentum and their ion codes. The record of the final state only has one vertex that the final particles leave. A final particle that was never reported, several ensembles and beams of anything but nucleons are refused, and no event leaves anything in the next one.", "quantifier": "all initial particle lists, all histories of interactions of any length with any reuse of identifiers, all earlier events", "why_tests_cant": "the record is the result of an arbitrarily long history in which identifiers are reused; tests write single events", "anchors": ["src/hepmcinterface.cc: at_eventstart, at_interaction, at_eventend, make_register, find_or_make, get_status, ion_pdg, clear", "src/hepmcoutput.cc: HepMcOutput::at_eventend", "src/include/smash/hepmcinterface.h: HepMcInterface"]}
{"id": "C128", "title": "The ROOT output contains every particle once, in numbered blocks of the right event, and every collision once", "statement": "Each output of a particle list becomes tree entries of at most the buffer size that together contain every particle, in order, whatever was in the buffer before. An event adds, after whatever earlier events, one block per output time, numbered from zero, labelled with its event and ensemble, with impact parameter and emptiness in the last one; with the final state only it adds one block, none for an unwanted empty event. A collision is one entry with incoming and outgoing particles, a fluidisation writes the particles it takes. Trees are saved at the documented frequency.", "quantifier": "all particle lists, buffer sizes, configurations, sequences of output times and events", "why_tests_cant": "losing a particle only shows beyond half a million particles, and the labels depend on the history of calls", "anchors": ["src/rootoutput.cc: particles_to_tree, collisions_to_tree, at_eventstart, at_intermediate_time, at_eventend, at_interaction", "src/include/smash/rootoutput.h: RootOutput"]}
{"id": "C129", "title": "The initial-conditions output for hydrodynamics lists exactly the removed particles that have interacted, on one hypersurface of constant proper time", "statement": "The file has the start and end lines of the events and between them, in order, one line for each removed particle that had collided before; spectators are left out. A run with several ensembles is refused before anything is written. A run in which the proper time of the removed particles changes is stopped; what was written before stays in the file.", "quantifier": "all sequences of events and removed particles, all positions, all numbers of ensembles", "why_tests_cant": "the check compares with the first particle of an arbitrarily long history of calls", "anchors": ["src/icoutput.cc: at_eventstart, at_eventend, at_interaction", "src/include/smash/icoutput.h: IC_proper_time_", "src/include/smash/fourvector.h: tau"]}
