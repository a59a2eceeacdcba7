{"id": "C01", "title": "Cutoff functions are bounded, vanish outside and decay", "statement": "For every cutoff type and admissible parameters, the cutoff function is exactly 0 at and beyond the cutoff radius, lies in [0,1] inside it, equals 1 on the inner plateau (types with an inner radius) and never increases with distance.", "quantifier": "all nine cutoff types, all rc > 0, all 0 <= alpha < 1, all distances r >= 0", "why_tests_cant": "A statement about a continuum of distances and parameters; tests sample finitely many points.", "anchors": ["src/libnnp/CutoffFunction.h:CutoffFunction::f", "src/libnnp/CutoffFunction.cpp:CutoffFunction::fCOS..fEXP"]}
{"id": "C02", "title": "Cutoff derivative is the true derivative, and the fused call agrees", "statement": "df(r) is the derivative of f at r, and fdf(r) returns exactly the pair (f(r), df(r)); this includes the inner radius and the cutoff radius themselves for every type except the hard cutoff, so the cutoff introduces no kink in energies.", "quantifier": "all cutoff types (hard cutoff: r <> rc), all rc > 0, 0 <= alpha < 1, all r > 0", "why_tests_cant": "Derivatives are limits; finite differences only approximate them at sampled points and cannot settle the boundary points.", "anchors": ["src/libnnp/CutoffFunction.cpp:CutoffFunction::df*,fdf*", "src/libnnp/CutoffFunction.h:CutoffFunction::fdf"]}
{"id": "C03", "title": "Cutoff setters are order independent", "statement": "Configuring a cutoff with setCutoffRadius and setCutoffParameter yields the same function whichever call comes first / whenever the radius is changed later.", "quantifier": "all sequences of setter calls", "why_tests_cant": "Tests exercise one call order; the claim is about every history of setter calls.", "anchors": ["src/libnnp/CutoffFunction.cpp:CutoffFunction::setCutoffRadius,setCutoffParameter"]}
{"id": "C04", "title": "Core, compact and screening functions: range, plateaus and true derivatives", "statement": "Core functions map [0,1] into [0,1] with value 1 at 0 and 0 at 1; the compact function is supported on (left,right) and its fused derivative is the true derivative; df agrees with fdf; the screening function is 0 up to the inner radius, 1 from the outer radius on, non-decreasing in between, and fdf gives its derivative.", "quantifier": "all core types, symmetric and asymmetric, all intervals left<right, all 0<=inner<outer, all arguments", "why_tests_cant": "Continuum of arguments plus derivative statement.", "anchors": ["src/libnnp/CoreFunction.h", "src/libnnp/CoreFunction.cpp", "src/libnnp/CompactFunction.h", "src/libnnp/ScreeningFunction.h"]}
{"id": "C05", "title": "Integer power is exact", "statement": "pow_int(x,n) equals x^n for every integer n (x <> 0 when n is negative).", "quantifier": "all real x, all integers n", "why_tests_cant": "Loop over binary digits must be right for every exponent.", "anchors": ["src/libnnp/utility.cpp:pow_int"]}
{"id": "C06", "title": "Whitespace reduction and splitting tokenise losslessly", "statement": "reduce() keeps exactly the non-blank tokens of a line, in order, separated by single fill strings, is idempotent, and split(reduce(line)) returns exactly the maximal blank-free substrings; joining the tokens of split with the delimiter gives the line back up to one trailing delimiter.", "quantifier": "all strings", "why_tests_cant": "Every input file goes through this code; the claim ranges over all strings.", "anchors": ["src/libnnp/utility.cpp:split,trim,reduce"]}
{"id": "C07", "title": "Element map is a bijection", "statement": "After registering a list of distinct known symbols, index->symbol and symbol->index are mutually inverse, indices are 0..n-1, ordered by atomic number, and independent of the order in which the symbols were listed; unknown symbols and out-of-range indices raise an error instead of returning data.", "quantifier": "all lists of distinct known element symbols, all queries", "why_tests_cant": "Quantifies over every permutation of every subset of the periodic table.", "anchors": ["src/libnnp/ElementMap.cpp", "src/libnnp/ElementMap.h"]}
{"id": "C08", "title": "Atomic number lookup is total on the periodic table", "statement": "symbolFromAtomicNumber and atomicNumber are mutually inverse for every known element, and no atomic number outside the table is accepted.", "quantifier": "all atomic numbers", "why_tests_cant": "Boundary of the table must be right for every index including the last one.", "anchors": ["src/libnnp/ElementMap.cpp:symbolFromAtomicNumber,atomicNumber"]}
{"id": "C09", "title": "Settings parsing: comments, blank lines and lookup", "statement": "Each line contributes exactly one (keyword, value) pair iff it has a non-comment token; comments never influence keyword or value; getValue returns the value of the requested keyword, and all values of a repeatable keyword are available with their line numbers in file order.", "quantifier": "all settings files (lists of lines), all keywords", "why_tests_cant": "Input language is infinite; interaction of comments, whitespace and repeated keywords cannot be enumerated.", "anchors": ["src/libnnp/Settings.cpp:parseLines,getValue,getValues,keywordExists"]}
{"id": "C10", "title": "Settings sanity check catches every duplicated or unknown keyword", "statement": "A settings file is accepted without critical problem exactly when no unique keyword occurs more than once; every unknown keyword is reported.", "quantifier": "all settings files", "why_tests_cant": "Ranges over all multisets of keywords.", "anchors": ["src/libnnp/Settings.cpp:sanityCheck"]}
{"id": "C11", "title": "Pruning comments out exactly the requested lines", "statement": "Writing a pruned settings file keeps every line and its order; exactly the lines whose indices were requested are turned into comments, all other lines are byte-identical.", "quantifier": "all settings files, all sets of line indices in any order with duplicates", "why_tests_cant": "All files and all index sets.", "anchors": ["src/libnnp/Mode.cpp:writePrunedSettingsFile", "src/libnnp/Settings.cpp:writeSettingsFile"]}
{"id": "C12", "title": "Symmetry function scaling is invertible, range preserving and consistently differentiated", "statement": "For every scaling type with non-degenerate data, unscale(scale(x)) = x = scale(unscale(x)); min/max scaling maps [Gmin,Gmax] onto [Smin,Smax]; the factor applied to derivatives is the derivative of the scaling map.", "quantifier": "all five scaling types, all data with Gmin<Gmax or sigma>0, all values", "why_tests_cant": "Continuum of values and parameters.", "anchors": ["src/libnnp/SymFnc.cpp:setScalingType,scale,unscale"]}
{"id": "C13", "title": "Extrapolation warnings are raised exactly outside the training range", "statement": "A warning is counted for a symmetry function value exactly if it lies outside [Gmin,Gmax] by more than the tolerance, and the running statistics (count, min, max, sum, sum of squares) equal those of the full history of values, in any order.", "quantifier": "all sequences of values", "why_tests_cant": "Accumulated over arbitrary histories.", "anchors": ["src/libnnp/Element.cpp:updateSymmetryFunctionStatistics", "src/libnnp/SymFncStatistics.cpp"]}
{"id": "C14", "title": "Neural network connection vector round trips", "statement": "getConnections returns exactly the vector last passed to setConnections; every weight and bias is determined by exactly one entry; getNumConnections is its length; connection offsets index it correctly.", "quantifier": "all architectures (layer sizes), all connection vectors", "why_tests_cant": "All architectures; an off-by-one shows up only for some shapes.", "anchors": ["src/libnnp/NeuralNetwork.cpp:setConnections,getConnections,calculateOffset", "src/libnnp/NeuralNetwork.h"]}
{"id": "C15", "title": "dE/dG is the gradient of the network output with respect to its inputs", "statement": "After propagation, calculateDEdG yields the partial derivatives of the output with respect to each input neuron.", "quantifier": "all architectures, all smooth activation functions per layer, all weights and inputs", "why_tests_cant": "Gradient identity over a continuum and all depths.", "anchors": ["src/libnnp/NeuralNetwork.cpp:propagate,propagateLayer,calculateDEdG"]}
{"id": "C16", "title": "dE/dc is the gradient of the network output with respect to weights and biases", "statement": "calculateDEdc yields, at the position of every connection, the partial derivative of the output with respect to that connection.", "quantifier": "all architectures, activations, weights, inputs", "why_tests_cant": "Gradient identity over a continuum and all depths; position correctness for every shape.", "anchors": ["src/libnnp/NeuralNetwork.cpp:calculateDEdc,calculateDEdb"]}
{"id": "C17", "title": "dF/dc is the mixed second derivative used for force training", "statement": "calculateDFdc returns, for each connection c, minus the derivative with respect to c of the directional derivative of the output along dG/dx.", "quantifier": "all architectures, activations, weights, inputs, directions", "why_tests_cant": "Mixed second derivatives for all depths.", "anchors": ["src/libnnp/NeuralNetwork.cpp:calculateDFdc,calculateD2EdGdc,calculateDxdG"]}
{"id": "C18", "title": "The inverse box is the matrix inverse", "statement": "calculateInverseBox yields the inverse of the cell matrix for every cell with non-zero volume, and the stored volume is the absolute determinant.", "quantifier": "all cells with nonzero determinant", "why_tests_cant": "All real matrices.", "anchors": ["src/libnnp/Structure.cpp:calculateInverseBox,calculateVolume"]}
{"id": "C19", "title": "Remapping moves atoms into the cell by lattice vectors", "statement": "After remap every periodic atom has fractional coordinates in [0,1), its displacement is an integer combination of the box vectors, and remapping again changes nothing.", "quantifier": "all non-degenerate cells, all positions", "why_tests_cant": "All positions including those on cell faces and far outside.", "anchors": ["src/libnnp/Structure.cpp:remap"]}
{"id": "C20", "title": "Enough periodic images are searched", "statement": "With the number of periodic copies computed for a cutoff, any periodic image of any atom of the (remapped) structure that lies within the cutoff of another atom is among the images searched.", "quantifier": "all non-degenerate (also triclinic) cells, all cutoffs > 0, all atom pairs and image indices", "why_tests_cant": "All lattices and unbounded integer image indices.", "anchors": ["src/libnnp/Structure.cpp:calculatePbcCopies"]}
{"id": "C21", "title": "Neighbour list is sound and complete", "statement": "calculateNeighborList stores for each atom exactly the (atom, image) pairs at distance at most the cutoff, excluding the atom itself, each once, with the correct displacement vector and distance.", "quantifier": "all structures (periodic or not), all cutoffs", "why_tests_cant": "Infinitely many images and all configurations.", "anchors": ["src/libnnp/Structure.cpp:calculateNeighborList"]}
{"id": "C22", "title": "Neighbour relation is symmetric", "statement": "If atom j (in some image) is stored as neighbour of i with displacement d, then i is stored as neighbour of j with displacement -d; pairs are stored equally often on both sides.", "quantifier": "all structures and cutoffs", "why_tests_cant": "Relation between two loops over all configurations.", "anchors": ["src/libnnp/Structure.cpp:calculateNeighborList"]}
{"id": "C23", "title": "Neighbour bookkeeping counters agree with the list", "statement": "numNeighbors, per-element counts, and the unique-neighbour list (self first, each index once) agree with the stored list; recomputing after clearNeighborList gives the same counters as on a fresh structure.", "quantifier": "all structures, all histories of computing and clearing neighbour lists", "why_tests_cant": "History dependent.", "anchors": ["src/libnnp/Structure.cpp:calculateNeighborList,clearNeighborList", "src/libnnp/Atom.cpp:clearNeighborList"]}
{"id": "C24", "title": "Neighbour cutoff map counts the neighbours below each cutoff", "statement": "After sorting, the number stored for each cutoff is the number of neighbours with distance not above it, and these are a prefix of the list.", "quantifier": "all sorted neighbour lists, all cutoff lists", "why_tests_cant": "All lists; boundary ties.", "anchors": ["src/libnnp/Structure.cpp:setupNeighborCutoffMap", "src/libnnp/Atom.cpp:getStoredMinNumNeighbors"]}
{"id": "C25", "title": "Minimum image convention is exact when the check allows it", "statement": "If canMinimumImageConventionBeApplied accepts the cutoff, then of all periodic images of an atom at most one lies within the cutoff and applyMinimumImageConvention returns that image.", "quantifier": "all cells, all displacements, all cutoffs accepted by the check", "why_tests_cant": "All lattices and images.", "anchors": ["src/libnnp/Structure.cpp:canMinimumImageConventionBeApplied,applyMinimumImageConvention"]}
{"id": "C26", "title": "Radial symmetry function value and derivative", "statement": "The radial symmetry function equals the sum over neighbours of the chosen element within its cutoff of exp(-eta (r-rs)^2) fc(r), and the stored derivatives are its exact partial derivatives with respect to the central atom and each neighbour position.", "quantifier": "all neighbour lists with positive distances, all parameters, all smooth cutoff types", "why_tests_cant": "Gradient identity for arbitrarily many neighbours in continuous configurations.", "anchors": ["src/libnnp/SymFncExpRad.cpp:calculate", "src/libnnp/SymGrpExpRad.cpp:calculate"]}
{"id": "C27", "title": "Angular (narrow/wide) symmetry functions value and derivative", "statement": "The narrow and wide angular symmetry functions equal their defining double sum over unordered neighbour pairs, and the stored derivatives are the exact partial derivatives with respect to the central atom and each neighbour position.", "quantifier": "all neighbour lists, element pairs, parameters", "why_tests_cant": "Gradient identity over unboundedly many pairs.", "anchors": ["src/libnnp/SymFncExpAngn.cpp:calculate", "src/libnnp/SymFncExpAngw.cpp:calculate"]}
{"id": "C28", "title": "Symmetry functions are invariant under translation, rotation and neighbour permutation", "statement": "Symmetry function values depend only on interatomic distances: they are unchanged by rigid motions of the environment and by reordering the neighbour list; derivatives over the central atom and neighbours sum to zero.", "quantifier": "all environments, all orthogonal transformations, all permutations", "why_tests_cant": "Continuous group of transformations and all permutations.", "anchors": ["src/libnnp/SymFncExpRad.cpp", "src/libnnp/SymFncExpAngn.cpp", "src/libnnp/SymFncExpAngw.cpp", "src/libnnp/SymFncCompRad.cpp"]}
{"id": "C29", "title": "Group evaluation equals individual evaluation", "statement": "Computing symmetry functions through groups gives the same values and derivatives as computing every symmetry function individually.", "quantifier": "all groups, all environments, all admissible parameters", "why_tests_cant": "Two different loop nests must agree for all inputs.", "anchors": ["src/libnnp/SymGrpExpRad.cpp:calculate", "src/libnnp/SymGrpExpAngn.cpp:calculate", "src/libnnp/SymGrpCompRad.cpp:calculate", "src/libnnp/Element.cpp:setupSymmetryFunctionGroups"]}
{"id": "C30", "title": "Every symmetry function belongs to exactly one group and keeps its index", "statement": "Grouping partitions the symmetry functions of an element: each function is a member of exactly one group, members of a group share the group-common parameters, and sorting assigns indices 0..n-1 as a permutation.", "quantifier": "all lists of symmetry functions", "why_tests_cant": "All lists.", "anchors": ["src/libnnp/Element.cpp:setupSymmetryFunctionGroups,sortSymmetryFunctions", "src/libnnp/SymGrp*.cpp:addMember"]}
{"id": "C31", "title": "Symmetry functions are invariant under change of length unit", "statement": "Changing the length unit of a symmetry function and rescaling all coordinates accordingly leaves its value unchanged (and scales derivatives inversely).", "quantifier": "all parameters, environments, positive conversion factors", "why_tests_cant": "Continuum.", "anchors": ["src/libnnp/SymFncExpRad.cpp:changeLengthUnit", "src/libnnp/SymFncBaseExpAng.cpp:changeLengthUnit", "src/libnnp/SymFncBaseComp*.cpp:changeLengthUnit"]}
{"id": "C32", "title": "Symmetry function caching is transparent", "statement": "Evaluating symmetry functions with the neighbour cache gives the same results as without, whatever the order of evaluation; cache slots are assigned so that two symmetry functions share a slot only if they cache the same quantity, and only slots used more than once are kept.", "quantifier": "all sets of symmetry functions, all evaluation orders", "why_tests_cant": "History/aliasing property over all parameter sets.", "anchors": ["src/libnnp/Mode.cpp:setupSymmetryFunctionCache", "src/libnnp/SymFnc*.cpp:calculate", "src/libnnp/SymGrp*.cpp:calculate"]}
{"id": "C33", "title": "Sparse derivative memory tables are consistent", "statement": "The per-element tables list exactly the symmetry functions that depend on a neighbour element, in increasing order, and the per-element index of each symmetry function is its position in that table.", "quantifier": "all lists of symmetry functions, all element counts", "why_tests_cant": "All lists; index bijection.", "anchors": ["src/libnnp/Element.cpp:setupSymmetryFunctionMemory"]}
{"id": "C34", "title": "Forces are minus the gradient of the energy", "statement": "The short-range forces assembled from network and symmetry function derivatives are minus the partial derivatives of the total energy with respect to every atomic coordinate, also when an atom interacts with its own periodic images.", "quantifier": "all structures, all symmetry function sets, all networks", "why_tests_cant": "Gradient of a composite function with unboundedly many terms.", "anchors": ["src/libnnp/Mode.cpp:calculateForces,calculateEnergy", "src/libnnp/Atom.cpp:calculateSelfForceShort,calculatePairForceShort"]}
{"id": "C35", "title": "Total short-range force vanishes", "statement": "The sum of the short-range forces over all atoms of a structure is zero.", "quantifier": "all structures, networks, symmetry functions", "why_tests_cant": "Conservation law over all configurations.", "anchors": ["src/libnnp/Mode.cpp:calculateForces"]}
{"id": "C36", "title": "Unit conversion round trips", "statement": "Converting a structure to normalised units and back restores every stored quantity, and normalised/physical conversions of each property are mutually inverse.", "quantifier": "all structures, all non-zero conversion factors, all properties", "why_tests_cant": "All values and all conversion factors.", "anchors": ["src/libnnp/Structure.cpp:toNormalizedUnits,toPhysicalUnits", "src/libnnp/Atom.cpp:toNormalizedUnits,toPhysicalUnits", "src/libnnp/Mode.cpp:normalized,physical,normalizedEnergy,physicalEnergy"]}
{"id": "C37", "title": "Each unit conversion scales every derivative array", "statement": "A single conversion to normalised units scales the stored symmetry function derivatives of atoms and of their neighbours by exactly the inverse length factor.", "quantifier": "all atoms with any number of neighbours", "why_tests_cant": "Depends on the number of neighbours.", "anchors": ["src/libnnp/Atom.cpp:toNormalizedUnits,toPhysicalUnits"]}
{"id": "C38", "title": "Energy offsets are added and removed exactly", "statement": "removeEnergyOffset after addEnergyOffset restores the energy; the offset is the composition-weighted sum of the atomic offsets; it commutes with unit conversion as documented.", "quantifier": "all compositions, offsets, energies", "why_tests_cant": "All compositions.", "anchors": ["src/libnnp/Mode.cpp:addEnergyOffset,removeEnergyOffset,getEnergyOffset,getEnergyWithOffset"]}
{"id": "C39", "title": "Error metrics accumulate correctly over ranks", "statement": "RMSE and MAE reported after collecting per-process sums equal the metrics of the complete data set, however the structures are distributed over processes.", "quantifier": "all data sets, all distributions over processes", "why_tests_cant": "All partitions of the data.", "anchors": ["src/libnnp/Structure.cpp:updateError", "src/libnnp/Atom.cpp:updateError", "src/libnnptrain/Dataset.cpp:collectError"]}
{"id": "C40", "title": "Charge equilibration conserves the total charge and minimises the energy", "statement": "The charges obtained from the equilibration system sum to the prescribed total charge, satisfy equal electronegativity, and the electrostatic energy reported equals the corresponding quadratic form; for a positive definite system the solution is the constrained minimiser.", "quantifier": "all structures, electronegativities, hardnesses (given an exact linear solve)", "why_tests_cant": "Holds for every system size.", "anchors": ["src/libnnp/Structure.cpp:calculateElectrostaticEnergy"]}
{"id": "C41", "title": "Charge responses preserve total charge and differentiate the charges", "statement": "The responses dQ/dchi and dQ/dJ solve the differentiated equilibration system; each response column sums to zero; they are the derivatives of the charges.", "quantifier": "all structures", "why_tests_cant": "Derivative identity for all sizes.", "anchors": ["src/libnnp/Structure.cpp:calculateDQdChi,calculateDQdJ,calculateDQdr"]}
{"id": "C42", "title": "Lagrange multiplier forces equal the full derivative of the 4G energy", "statement": "The force obtained with the Lagrange multipliers equals minus the total derivative of the energy including the response of the charges.", "quantifier": "all structures, any energy model differentiable in positions and charges", "why_tests_cant": "Derivative identity for implicitly defined charges.", "anchors": ["src/libnnp/Mode.cpp:calculateForces", "src/libnnp/Structure.cpp:calculateForceLambdaTotal,calculateForceLambdaElec"]}
{"id": "C43", "title": "Reciprocal-space grid covers each vector pair once", "statement": "The k-grid contains, for every reciprocal lattice vector k<>0 with |k| below the cutoff, exactly one of k and -k, and nothing else.", "quantifier": "all reciprocal lattices, all cutoffs", "why_tests_cant": "Unbounded integer ranges and all lattices.", "anchors": ["src/libnnp/Kspace.cpp:KspaceGrid::setup,calculatePbcCopies"]}
{"id": "C44", "title": "erfc buffer is transparent", "statement": "Buffered evaluations return erfc of the argument for the first and all later queries of the same pair, for every sequence of queries between resets.", "quantifier": "all query sequences", "why_tests_cant": "History property.", "anchors": ["src/libnnp/ErfcBuf.cpp"]}
{"id": "C45", "title": "Kalman filter keeps the error covariance symmetric positive definite", "statement": "Starting from a symmetric positive definite matrix, every Kalman update with valid parameters keeps it symmetric positive definite, the innovation matrix stays invertible, and (standard type without process noise) the inverse covariance gains exactly eta H H^T.", "quantifier": "all state/observation sizes, all Jacobians, all update histories", "why_tests_cant": "Invariant over unbounded update sequences and matrix sizes.", "anchors": ["src/libnnptrain/KalmanFilter.cpp:update,setParametersStandard,setParametersFadingMemory"]}
{"id": "C46", "title": "Kalman filter annealing schedules", "statement": "Over any number of updates the learning rate is non-decreasing and process noise non-increasing, following the documented exponential law until their bounds; the forgetting factor stays in (0,1] and follows its closed form.", "quantifier": "all parameter values in range, all numbers of updates", "why_tests_cant": "Unbounded histories.", "anchors": ["src/libnnptrain/KalmanFilter.cpp:update"]}
{"id": "C47", "title": "Gradient descent and Adam follow their published update rules", "statement": "Fixed-step descent moves along the negative gradient of the squared error; the Adam state equals the exponentially weighted sums of all past gradients and the step equals the bias-corrected step of the reference algorithm (with rescaled epsilon).", "quantifier": "all state sizes, all gradient histories", "why_tests_cant": "Unbounded histories.", "anchors": ["src/libnnptrain/GradientDescent.cpp:update"]}
{"id": "C48", "title": "Structure distribution assigns every structure exactly once and evenly", "statement": "Distributing n structures over the processes gives each structure to exactly one process, loads differ by at most one between receiving processes, rank 0 receives none when excluded, and local indices increase; this holds for random distribution with any random sequence for which the loop ends.", "quantifier": "all n, numbers of processes, both modes, all random sequences", "why_tests_cant": "All sizes and random sequences.", "anchors": ["src/libnnptrain/Dataset.cpp:distributeStructures"]}
{"id": "C49", "title": "Structures survive transfer between processes", "statement": "recvStructure after sendStructure reproduces all transferred fields of the structure, and the send buffer has exactly the size needed, so packing never overruns it.", "quantifier": "all structures with any numbers of atoms, neighbours, symmetry functions", "why_tests_cant": "All shapes; memory safety for all sizes.", "anchors": ["src/libnnptrain/Dataset.cpp:calculateBufferSize,sendStructure,recvStructure"]}
{"id": "C50", "title": "Numeric force preparation covers every displacement once", "statement": "Over all processes, prepareNumericForces creates the unaltered structure once and, for every atom, coordinate and sign, exactly one displaced copy.", "quantifier": "all atom counts, all process counts", "why_tests_cant": "All sizes.", "anchors": ["src/libnnptrain/Dataset.cpp:prepareNumericForces"]}
{"id": "C51", "title": "Collective file output is complete and ordered", "statement": "The symmetry function file contains every structure's block exactly once in order of the structure index for every distribution and interleaving allowed by the barriers; combining per-process files concatenates them in rank order and loses nothing.", "quantifier": "all distributions, all schedules", "why_tests_cant": "Schedules.", "anchors": ["src/libnnptrain/Dataset.cpp:writeSymmetryFunctionFile,combineFiles"]}
{"id": "C52", "title": "Training/test split is a partition with complete update candidates", "statement": "Every structure not already assigned ends up in exactly one of training and test set; the update candidates are exactly the training structures (energy), training force components (force) or atoms (charge), each once.", "quantifier": "all data sets, all random sequences", "why_tests_cant": "All sizes.", "anchors": ["src/libnnptrain/Training.cpp:selectSets"]}
{"id": "C53", "title": "Epoch schedule contains each property's updates", "statement": "The epoch schedule is an arrangement of exactly the planned number of updates of every property, and over an epoch candidate positions cycle through all candidates before repeating.", "quantifier": "all properties/update plans, all shuffles, all epochs", "why_tests_cant": "All shuffles and lengths.", "anchors": ["src/libnnptrain/Training.cpp:setEpochSchedule,loop,update"]}
{"id": "C54", "title": "Jacobian and error slots never collide", "statement": "For every parallel mode, Jacobian mode and update strategy, contributions of different (task, batch element, element, connection) go to distinct in-range positions of the Jacobian exactly when they must not be summed.", "quantifier": "all process counts, batch sizes, element and connection counts", "why_tests_cant": "All sizes.", "anchors": ["src/libnnptrain/Training.cpp:setupUpdatePlan,allocateArrays,update"]}
{"id": "C55", "title": "Threshold selection updates with the best candidate", "statement": "In threshold mode, the candidate used for an update is the first tried whose error exceeds the threshold, or, if none of the trials does, the one with the largest error among them.", "quantifier": "all candidate lists, thresholds, trial counts, positions", "why_tests_cant": "All lists and positions.", "anchors": ["src/libnnptrain/Training.cpp:update"]}
{"id": "C56", "title": "Weights vector of the trainer round trips with the networks", "statement": "getWeights after setWeights returns the weights vector (hardness slots up to sign), setWeights after getWeights leaves all networks and non-negative hardnesses unchanged, for both update strategies; computing numeric weight derivatives leaves the networks unchanged.", "quantifier": "all element counts, architectures, weights", "why_tests_cant": "All shapes and histories.", "anchors": ["src/libnnptrain/Training.cpp:getWeights,setWeights,dPdcN"]}
{"id": "C57", "title": "Data set normalisation produces unit statistics", "statement": "After normalisation based on reference data the energies per atom have mean zero and standard deviation one, and forces have standard deviation one; after normalisation based on forces the reference forces have standard deviation one.", "quantifier": "all data sets with non-zero deviations", "why_tests_cant": "All data sets.", "anchors": ["src/libnnptrain/Training.cpp:dataSetNormalization", "src/libnnp/Structure.cpp:toNormalizedUnits"]}
{"id": "C58", "title": "LAMMPS interface: per-atom energies add up and forces land on the right atoms", "statement": "The sum of per-atom energies equals the reported total energy; atoms of ignored types are skipped and positions, tags and forces are associated with the correct LAMMPS atom.", "quantifier": "all atom lists, type maps, conversion factors", "why_tests_cant": "All index maps.", "anchors": ["src/libnnpif/LAMMPS/InterfaceLammps.cpp:setLocalAtoms,setLocalAtomPositions,getAtomicEnergy,getEnergy,getForces"]}
{"id": "C59", "title": "LAMMPS extrapolation warning transfer", "statement": "Packing extrapolation warnings on one process and extracting them on another appends exactly the sender's warnings, and the buffer size computed is exactly the size packed.", "quantifier": "all statistics states, any number of ranks", "why_tests_cant": "All shapes; accumulation history.", "anchors": ["src/libnnpif/LAMMPS/InterfaceLammps.cpp:getEWBufferSize,fillEWBuffer,extractEWBuffer"]}
{"id": "C60", "title": "Structure selection tool partitions the data set", "statement": "nnp-select writes every line of the data file to exactly one of the output and reject files, keeps the order, never splits a structure, and in interval mode selects every k-th structure.", "quantifier": "all data files, intervals, random sequences", "why_tests_cant": "All files.", "anchors": ["src/application/nnp-select.cpp"]}
{"id": "C61", "title": "Stopwatch totals", "statement": "For any sequence of start/stop calls the total is the sum of all completed intervals, and misuse (start while running, stop while stopped) is reported and does not change the totals.", "quantifier": "all call sequences and clock readings", "why_tests_cant": "History property.", "anchors": ["src/libnnp/Stopwatch.cpp", "src/libnnp/Stopwatch.h"]}
{"id": "C62", "title": "Structure file round trip", "statement": "Writing a structure and reading it back yields the same structure up to number formatting (and remapping of positions for periodic structures).", "quantifier": "all structures", "why_tests_cant": "All structures.", "anchors": ["src/libnnp/Structure.cpp:writeToFile,readFromLines"]}
{"id": "C63", "title": "Connection modification schemes have their documented effect", "statement": "Preconditioning with (mean, sigma) turns an output o of a network with linear output into sigma*(o-b)+b+mean, b being the output bias; zeroing the biases changes no weight and makes every bias zero; fan-in, Glorot-Bengio and Nguyen-Widrow schemes scale the weights of the documented layers by the documented factors and nothing else; initialization schemes treat all output weights alike.", "quantifier": "all networks, inputs and parameters", "why_tests_cant": "All architectures and weights.", "anchors": ["src/libnnp/NeuralNetwork.cpp:modifyConnections"]}
{"id": "C64", "title": "Neuron statistics describe the evaluation history", "statement": "After a reset, the count, minimum, maximum, sum and sum of squares reported for each neuron are those of the values it received in the evaluations since the reset.", "quantifier": "all networks, all histories of evaluations", "why_tests_cant": "History property.", "anchors": ["src/libnnp/NeuralNetwork.cpp:resetNeuronStatistics,getNeuronStatistics,setInput,propagateLayer"]}
{"id": "C65", "title": "The weights file restores the network", "statement": "The rows written by writeConnections are numbered consecutively and their value column, used as connection vector, restores every weight and bias; the layer and neuron columns of each row name the connection whose value it contains.", "quantifier": "all networks", "why_tests_cant": "All architectures.", "anchors": ["src/libnnp/NeuralNetwork.cpp:writeConnections,setConnections"]}
{"id": "C66", "title": "Normalization data end up in the settings file", "statement": "After data set normalization the new settings file sets mean_energy, conv_energy and conv_length to the values found and is otherwise the old file.", "quantifier": "all settings files", "why_tests_cant": "All settings files.", "anchors": ["src/libnnptrain/Training.cpp:dataSetNormalization", "src/libnnp/Settings.cpp:writeSettingsFile"]}
{"id": "C67", "title": "Numbers survive being written to a file", "statement": "A double written with the format used for weights, scaling data and structures (16 digits after the point) is read back as exactly the same double; with fewer digits it is off by at most half a unit in the last digit; columns never run into each other.", "quantifier": "all doubles (finite, including subnormal ones)", "why_tests_cant": "2^64 values.", "anchors": ["src/libnnp/utility.cpp:strpr,readColumnsFromFile", "src/libnnp/Structure.cpp:writeToFile,readFromLines", "src/libnnp/NeuralNetwork.cpp:writeConnections"]}
{"id": "C68", "title": "Energies and forces do not depend on the description of a structure", "statement": "Moving a structure rigidly (translation, rotation, reflection), renumbering its atoms, choosing other cell vectors of the same lattice or replacing atoms by periodic images changes neither the energy nor the energy of any atom, and the forces are the forces of the original structure turned along and renumbered.", "quantifier": "all potentials, all structures, all rigid motions, permutations and equivalent cells", "why_tests_cant": "All structures and motions; a test compares a few numbers within a tolerance.", "anchors": ["src/libnnp/Mode.cpp:evaluateNNP", "src/libnnp/Structure.cpp:calculateNeighborList", "src/libnnp/Element.cpp:calculateSymmetryFunctions,calculateSymmetryFunctionGroups", "src/libnnp/Mode.cpp:calculateForces"]}
{"id": "C69", "title": "A supercell has the energy and the forces of its copies", "statement": "Repeating a periodic cell n1 x n2 x n3 times multiplies the energy by n1*n2*n3, and each copy of an atom has the atomic energy and the force of the atom in the small cell.", "quantifier": "all periodic structures, potentials and numbers of repetitions", "why_tests_cant": "All cells and repetitions, in particular cells smaller than the cutoff radius, where neighbours are images.", "anchors": ["src/libnnp/Structure.cpp:calculateNeighborList,calculatePbcCopies", "src/libnnp/Mode.cpp:evaluateNNP"]}
{"id": "C70", "title": "Groups of atoms out of reach do not influence each other", "statement": "If no atom of one group is within the cutoff radius of an atom of another group (or one of its images), the energy of both together is the sum of the energies and the forces are those of each group alone.", "quantifier": "all potentials and structures consisting of two separated groups", "why_tests_cant": "All structures.", "anchors": ["src/libnnp/Structure.cpp:calculateNeighborList", "src/libnnp/Mode.cpp:evaluateNNP"]}
{"id": "C71", "title": "Training differentiates what the potential predicts", "statement": "For every weight and bias, the derivative of the energy of a structure and of each force component which the training code calculates is the derivative of the energy or force that the potential predicts as a function of this parameter; the Jacobian handed to the updater contains for each row and parameter the sum of the derivatives of the candidates which belong to the row.", "quantifier": "all networks, symmetry functions, structures, parameters, candidates, distributions over processes, parallel modes and Jacobian modes", "why_tests_cant": "All networks and structures; nnp-checkdw compares finite differences within a tolerance for one potential.", "anchors": ["src/libnnptrain/Training.cpp:dPdc,calculateWeightDerivatives,collectDGdxia,update", "src/libnnp/NeuralNetwork.cpp:calculateDEdc,calculateDFdc", "src/libnnp/Mode.cpp:evaluateNNP"]}
{"id": "C72", "title": "Symmetry functions are those in the settings file", "statement": "Each symfunction_short line gives exactly one symmetry function, for the element, with the neighbor elements and the parameters the documentation assigns to the words of the line, evaluated in the unit of length in use; lines which do not follow the documented format stop the set-up; the resulting lists and the numbering of the functions (on which scaling data and network inputs depend) do not depend on the order of the lines.", "quantifier": "all settings files, cutoff types, units and implementations of sorting", "why_tests_cant": "All texts and all orders of lines; wrong numbering shows only in results.", "anchors": ["src/libnnp/Mode.cpp:setupSymmetryFunctions,setupCutoff", "src/libnnp/Element.cpp:addSymmetryFunction,sortSymmetryFunctions,setCutoffFunction,changeLengthUnit", "src/libnnp/SymFncBaseExpAng.cpp:setParameters", "src/libnnp/SymFncBaseCompAng.cpp:setParameters"]}
{"id": "C73", "title": "Pruning removes exactly the chosen symmetry functions", "statement": "After pruning by range or by sensitivity, loading the written settings file gives exactly the functions whose range (sensitivity) reaches the threshold, in unchanged order, and leaves all other settings as they were.", "quantifier": "all settings files, ranges, sensitivities and thresholds", "why_tests_cant": "All files; an off-by-one line number removes another function.", "anchors": ["src/libnnp/Mode.cpp:pruneSymmetryFunctionsRange,pruneSymmetryFunctionsSensitivity,writePrunedSettingsFile", "src/application/nnp-prune.cpp"]}
{"id": "C74", "title": "Networks have the architecture in the settings file", "statement": "If the set-up of the networks succeeds, every element's network has one input neuron per symmetry function, one output neuron, the requested number of hidden layers and, per layer, the number of neurons and the activation function of the element's own keyword or else of the global keyword; incomplete or inconsistent settings stop the set-up; settings which follow the documentation are accepted.", "quantifier": "all settings files, elements and numbers of layers", "why_tests_cant": "All combinations of global and element-specific lines; a wrong layer still gives a network that runs.", "anchors": ["src/libnnp/Mode.cpp:setupNeuralNetwork", "src/libnnp/NeuralNetwork.cpp:NeuralNetwork,activationFromString", "src/libnnp/Settings.cpp:getValues"]}
{"id": "C75", "title": "A fourth-generation potential gives consistent charges, energies and forces", "statement": "The charges reported for a structure add up to the reference charge of the structure and have equal electronegativity for the electronegativities its networks predict; the reported energy is the sum of the atomic energies the short-range networks predict from symmetry functions and these charges, plus the screened electrostatic energy; total and electrostatic forces are the negative gradients of total and electrostatic energy, including the response of charges and electronegativities to the motion of atoms.", "quantifier": "all potentials, isolated structures, units, solvers and sorting routines", "why_tests_cant": "All structures; the chain of derivatives through two networks and a linear system is not visible in single values.", "anchors": ["src/libnnp/Mode.cpp:evaluateNNP,calculateAtomicNeuralNetworks,chargeEquilibration,calculateEnergy,calculateForces", "src/libnnp/Structure.cpp:calculateElectrostaticEnergy,calculateForceLambdaTotal", "src/libnnp/Atom.cpp:calculateDChidr,calculatePairForceShort"]}
{"id": "C76", "title": "Scaling file round trip", "statement": "Symmetry function statistics written to a scaling file and loaded again give every symmetry function of every element exactly the minimum, maximum, mean and sigma written for it, together with the scaling type and the target range requested by the keywords of the settings file; in particular all values of the data set the statistics were collected from are mapped into the target range. Any file that loads successfully has at least one data line per symmetry function, and each function is set from the line at its position, which carries the numbers of this element and function. Header lines of any file are comments.", "quantifier": "all numbers of elements and symmetry functions, all statistics representable as doubles, all settings, all texts of scaling files, all header titles and columns", "why_tests_cant": "numbers, element blocks and files are unbounded; the digits of every double and every ordering of lines matter", "anchors": ["src/libnnptrain/Dataset.cpp:writeSymmetryFunctionScaling", "src/libnnp/Mode.cpp:setupSymmetryFunctionScaling", "src/libnnp/SymFnc.cpp:setScalingType", "src/libnnp/Element.cpp:setScaling", "src/libnnp/utility.cpp:createFileHeader"]}
{"id": "C77", "title": "Weights file round trip", "statement": "A weights file written for a neural network and loaded into a network of the same architecture restores every weight and bias exactly; whatever file loads successfully, each weight and bias is the number at its position in the first column; a file with too few numbers is rejected. The same holds for the atomic hardness.", "quantifier": "all architectures, all weights representable as doubles, all texts of weights files, all hardness values", "why_tests_cant": "architectures and weights are unbounded, and the failure on short files is undefined behaviour that a test may not notice", "anchors": ["src/libnnp/NeuralNetwork.cpp:writeConnections,setConnections", "src/libnnp/Mode.cpp:readNeuralNetworkWeights,setupElectrostatics", "src/libnnp/utility.cpp:readColumnsFromFile,createFileHeader", "src/libnnptrain/Training.cpp:writeWeights,writeHardness"]}
{"id": "C78", "title": "Ewald parameters meet the requested precision", "statement": "For every cell the choice of the Ewald parameters ends and returns positive parameters: with the method of Kolafa and Perram their estimates of the real space and reciprocal space force errors are not larger than the precision in the settings (up to the tolerance 1e-10 of the iterations), and equal if the width is chosen freely; a width given by the charges is never undercut, a cutoff given in the settings is kept, and precisions that cannot be met are rejected. With the method of Jackson and Catlow both Gaussians have fallen to the precision at the cutoffs.", "quantifier": "all precisions, charges, cutoffs, widths, volumes and numbers of atoms", "why_tests_cant": "termination of nested iterations and error bounds over all real inputs; wrong parameters give slightly wrong energies only", "anchors": ["src/libnnp/EwaldSetup.cpp:readFromArgs,calculateParameters", "src/libnnp/EwaldTruncJackson.cpp:calculateParameters", "src/libnnp/EwaldTruncKolafaFixR.cpp:calculateParameters,calculateEta,calculateKCut", "src/libnnp/EwaldTruncKolafaOptEta.cpp:calculateParameters,calculateEta,calculateS", "src/libnnp/Mode.cpp:setupElectrostatics"]}
{"id": "C79", "title": "Ewald parameters depend on the structure only", "statement": "Whatever structures were evaluated before, each periodic structure is treated with the Ewald parameters and the neighbor list range it would have as the first one; the neighbor list reaches the real space cutoff; in normalized units the same parameters are chosen, converted to the units.", "quantifier": "all sequences of structures, settings, and unit conversion factors", "why_tests_cant": "caching between calls must be right for every history", "anchors": ["src/libnnp/Structure.cpp:calculateMaxCutoffRadiusOverall,calculateNeighborList", "src/libnnp/EwaldSetup.cpp:toNormalizedUnits,calculateParameters", "src/libnnp/Mode.cpp:evaluateNNP", "src/libnnptrain/Training.cpp:calculateNeighborLists"]}
{"id": "C80", "title": "Electrostatics settings reach every element", "statement": "After the set-up of the electrostatics every element has the hardness (from settings or files) and the charge width given for it last, converted to the units in use; truncation method, precision, permittivity and screening function are those of the settings; settings that leave an element without values are rejected.", "quantifier": "all settings files, hardness files, element lists and unit conversion factors", "why_tests_cant": "all orders and repetitions of lines; a value given to another element is not visible in the log", "anchors": ["src/libnnp/Mode.cpp:setupElectrostatics,normalized", "src/libnnp/ScreeningFunction.cpp:setInnerOuter,changeLengthUnits", "src/libnnp/Element.h:setHardness,setQsigma"]}
{"id": "C81", "title": "Selection modes follow the schedule", "statement": "In every epoch of a training each property (energies, forces, charges) is trained with the selection mode that the schedule in the settings asks for in this epoch, with its threshold and number of trials; a line for the property itself has precedence over the line for all. The patterns are ordered by their errors exactly in epochs with the sorting mode. Lines that are not a schedule of known modes are rejected.", "quantifier": "all settings, numbers of epochs, schedules in any order and with repetitions, all properties and training stages", "why_tests_cant": "schedules and epochs are unbounded; a wrong mode only changes which patterns are used", "anchors": ["src/libnnptrain/Training.cpp:setupSelectionMode,checkSelectionMode,loop,sortUpdateCandidates,shuffleUpdateCandidates"]}
{"id": "C82", "title": "Training ends and writes its files as asked", "statement": "A training that was set up runs the number of epochs asked for and then ends. In exactly the epochs asked for by the keywords it writes the files with weights (and hardness), comparisons of training and test data and neuron statistics, each with the data of its own epoch; all other files of this kind on the disk are not touched. Learning curve, timing and updater files hold each epoch exactly once and in order, whatever they held before.", "quantifier": "all settings, numbers of epochs, elements, previous contents of the directory, shuffles and update results", "why_tests_cant": "epochs and names are unbounded; two files could collide for some epoch or element only", "anchors": ["src/libnnptrain/Training.cpp:setupFileOutput,loop,writeWeightsEpoch,writeHardnessEpoch,calculateErrorEpoch,writeNeuronStatisticsEpoch,writeLearningCurve,writeUpdaterStatus,writeTimingData"]}
{"id": "C83", "title": "Updaters are set up from the settings", "statement": "Training uses exactly the updaters that the settings ask for: their number, number of weights, initial weights and parameters. The decay constant of the Kalman filter's process noise and the growth constant of its learning rate are per epoch: their values after any number of epochs do not depend on how many updates an epoch has. Combinations of settings that do not work together are rejected, and the error shown is the one asked for.", "quantifier": "all settings, potential types, stages, process numbers, networks and training histories", "why_tests_cant": "holds for every number of updates per epoch and every history of updates", "anchors": ["src/libnnptrain/Training.cpp:setStage,setupTraining,initializeWeightsMemory,update", "src/libnnptrain/KalmanFilter.cpp:setParametersStandard,setParametersFadingMemory", "src/libnnptrain/GradientDescent.cpp:setParametersFixed,setParametersAdam"]}
{"id": "C84", "title": "Number of patterns of an epoch", "statement": "In every epoch each property is updated as often as needed to use the fraction of the training patterns asked for, rounded down to whole updates of the batch size asked for (or in one update with the batch size 0); with a ratio of forces to energies given, this ratio of patterns is used.", "quantifier": "all settings, numbers of patterns, processes and epochs", "why_tests_cant": "rounding for all fractions, batch sizes and numbers of processes; order of updates is random", "anchors": ["src/libnnptrain/Training.cpp:setupUpdatePlan,setEpochSchedule,loop"]}
{"id": "C85", "title": "LAMMPS atom types are the elements named for them", "statement": "After pair_coeff (or a mapping text) with element names for the atom types, the pair style treats atoms of each type as the element named for the type and ignores the others; without names the types stand for the elements in the order of their atomic numbers. Unknown elements and types, malformed texts and a LAMMPS cutoff shorter than that of the symmetry functions are rejected; after a successful set-up every atom type in use is either ignored or has an element of the potential.", "quantifier": "all texts, numbers of types and elements, names, unit conversion factors and cutoff radii", "why_tests_cant": "arbitrary texts with blanks, repetitions and gaps; a wrong element gives plausible energies", "anchors": ["src/interface/LAMMPS/src/ML-HDNNP/pair_hdnnp.cpp:coeff,init_style", "src/libnnpif/LAMMPS/InterfaceLammps.cpp:initialize,getMaxCutoffRadius"]}
{"id": "C86", "title": "Extrapolation warning limits and summaries in LAMMPS", "statement": "The simulation is stopped in the first time step in which the extrapolation warnings of a process (all so far, or those of the step with resetew) exceed maxew, and not before; summaries are written exactly in the time steps that are multiples of showewsum and give the number of warnings of all processes since the last summary and their number per time step.", "quantifier": "all settings, numbers of processes, sequences of time steps and numbers of warnings", "why_tests_cant": "histories of time steps on any number of processes", "anchors": ["src/interface/LAMMPS/src/ML-HDNNP/pair_hdnnp.cpp:compute,handleExtrapolationWarnings,settings", "src/libnnpif/LAMMPS/InterfaceLammps.cpp:initialize"]}
{"id": "C87", "title": "Histograms count every value once", "statement": "The symmetry function histograms of nnp-scaling and nnp-atomenv are written for exactly those symmetry functions whose values vary over the data set. Their bins are adjacent, of equal width, start at the smallest value and contain the largest one, and every value of the data set is counted in exactly one bin, however the structures are distributed over processes. The neighbor histogram, the numbers in the log and the per-structure file give the number of atoms with each number of neighbors, and minimum, maximum and mean.", "quantifier": "all data sets, numbers of bins, elements, symmetry functions and processes", "why_tests_cant": "a value lost at a bin limit or on one process is seen only for particular data", "anchors": ["src/libnnptrain/Dataset.cpp:writeSymmetryFunctionHistograms,writeNeighborHistogram,collectSymmetryFunctionStatistics"]}
{"id": "C88", "title": "Neighbor list file and atomic environment file", "statement": "The neighbor list file gives for every atom its atomic number, the number of neighbors of each element and the indices of all atoms and periodic images in range, nearest first. The atomic environment file has one line for every atom with its own symmetry function values followed by those of the requested numbers of nearest neighbors of each element, with the same meaning of each column for all atoms of an element; it is refused exactly if some atom has too few neighbors.", "quantifier": "all structures, neighbor numbers requested, elements and processes", "why_tests_cant": "depends on the order of distances in all environments", "anchors": ["src/libnnptrain/Dataset.cpp:sortNeighborLists,writeNeighborLists,writeAtomicEnvironmentFile", "src/libnnp/Atom.cpp:Neighbor::operator<"]}
{"id": "C89", "title": "Radial distribution functions count the right pairs", "statement": "For every data set, number of bins and cutoff radius, the program nnp-dist writes one radial distribution file for each unordered pair of elements. Row n has the bin limits n*rc/N and (n+1)*rc/N, the mean over all structures of the number of pairs (atom of the first element, atom or periodic image of the second element) whose distance lies in the bin, normalised by the shell volume and for periodic structures by volume/(N_i*N_j), the same column divided by its maximum, and, if all structures are periodic, the running trapezoidal coordination number. The run succeeds exactly if no pair is exactly at the cutoff.", "quantifier": "all lists of structures (periodic or not), all numbers of elements and bins, all cutoff radii, all neighbor orders", "why_tests_cant": "The two half contributions of unlike pairs only combine to the right number because the neighbor relation is symmetric for every geometry; failing cases need a distance exactly at the cutoff.", "anchors": ["src/application/nnp-dist.cpp: main", "src/libnnp/Structure.cpp: Structure::calculateNeighborList"]}
{"id": "C90", "title": "Angular distribution functions are probability densities of angles", "statement": "For every data set without coinciding atoms, nnp-dist writes one angular distribution file for each central element and unordered pair of neighbor elements. Row n holds the mean over all structures of the fraction, per degree, of triples (central atom with two different neighbors of the given elements) whose angle lies in bin n, 180 degrees belonging to the last bin, and the same divided by the maximum. If every structure contains such a triple the integral is 1.", "quantifier": "all lists of structures, all numbers of elements and bins, all cutoff radii, all neighbor orders", "why_tests_cant": "Angles of exactly 0 and 180 degrees and equal neighbor elements need separate treatment; structures without any such triple change the normalisation.", "anchors": ["src/application/nnp-dist.cpp: main"]}
{"id": "C91", "title": "Predictions in units of the structure file", "statement": "For every structure file that can be read and every potential with or without normalization and atomic energy offsets, the prediction tool succeeds and writes: the energy of the potential evaluated at the geometry converted to the potential's units, converted back, plus the mean energy and offset of each atom; atomic energies that add up to it together with means and offsets; reference energy, charges, forces and geometry exactly as in the file; and forces that are minus the gradient of the energy written with respect to the positions in the units of the file.", "quantifier": "all texts of structure files, all element maps, potentials, offsets, normalization constants, cutoffs, structures (periodic or not) and directions of displacement", "why_tests_cant": "the conversions cancel only in the right order and with the right factors, for every number of atoms of each element; tests compare a few stored outputs of one potential", "anchors": ["src/libnnp/Prediction.cpp: readStructureFromFile, predict", "src/application/nnp-predict.cpp: main", "src/libnnp/Structure.cpp: readFromLines", "src/libnnp/Mode.cpp: evaluateNNP, removeEnergyOffset, addEnergyOffset, convertToNormalizedUnits, convertToPhysicalUnits"]}
{"id": "C92", "title": "Normalization written by training is what later runs use", "statement": "For every settings file the normalization constants used by a run are the first values given, normalization is off exactly if none of the keywords occurs, and an incomplete set of keywords is an error; the settings file written by training with data set normalization is accepted by later runs, which use exactly the constants training computed and see all other settings unchanged.", "quantifier": "all texts of settings files, all computed constants representable as double, all earlier normalization keywords in the file", "why_tests_cant": "depends on where keywords are placed in a file of any length and on printing and reading numbers without loss; tests use one file with well-placed keywords", "anchors": ["src/libnnp/Mode.cpp: loadSettingsFile, setupNormalization", "src/libnnptrain/Training.cpp: dataSetNormalization", "src/libnnp/Settings.cpp: loadFile, writeSettingsFile"]}
{"id": "C93", "title": "Converted structure files contain the same structures", "statement": "For every data file that can be read and every choice and order of element symbols, the conversion tool writes an XYZ file with exactly one frame per structure, in order, with the lattice (if periodic), symbols and positions of all atoms in order, or for periodic structures one POSCAR file per structure with comment, lattice, and the positions grouped by symbol in the order of the command line with correct counts, every atom in exactly one group; numbers read back from the files are exactly those in memory.", "quantifier": "all data files, all lists of distinct element symbols, all structures with any number of atoms whose coordinates are doubles", "why_tests_cant": "files of any length with any mix of elements and periodicities; the one structure object is reused for all of them, so leftovers of one structure would appear in the next", "anchors": ["src/application/nnp-convert.cpp: main", "src/libnnp/Structure.cpp: writeToFileXyz, writeToFilePoscar, reset, readFromFile"]}
{"id": "C94", "title": "Training and test set files contain the data set exactly once", "statement": "For every data set, every distribution of its structures over processes and every assignment of labels, the training and test set files written by the set-up can be read again and contain exactly the structures with the respective label, with the original reference energies (energy offsets restored), forces, charges and geometry; if all structures are labelled each one is in exactly one file; the structures kept in memory for training are unchanged.", "quantifier": "all data sets, numbers of processes, distributions, labels and energy offsets", "why_tests_cant": "a structure lost, doubled or shifted on one process shows only for particular distributions; the offsets are added and removed in place, so a wrong order changes the training data silently", "anchors": ["src/libnnptrain/Training.cpp: writeSetsToFiles", "src/libnnptrain/Dataset.cpp: distributeStructures", "src/libnnp/Mode.cpp: addEnergyOffset, removeEnergyOffset", "src/libnnp/Structure.cpp: writeToFile"]}
{"id": "C95", "title": "Initial weights are the same on all processes and follow the settings", "statement": "For every seed, number of processes and settings file, a training run starts with identical networks on all processes. With use_old_weights each element gets the weights of its file. Otherwise every connection of every element gets a random number of its own from [weights_min, weights_max), times the Glorot-Bengio factor for layers with hyperbolic tangent and with all biases zero, or scaled per hidden neuron to the length of the Nguyen-Widrow scheme if asked for; preconditioning, which is not implemented, is refused. Personal generators of the processes are seeded with different draws.", "quantifier": "all seeds, random number generators, numbers of processes, settings, network architectures and weight files", "why_tests_cant": "identity on all processes depends on every process drawing equally many numbers from the same generator; a test sees one seed, one architecture and few processes", "anchors": ["src/libnnptrain/Dataset.cpp: setupRandomNumberGenerator", "src/libnnptrain/Training.cpp: initializeWeights, randomizeNeuralNetworkWeights", "src/libnnp/NeuralNetwork.cpp: modifyConnections, setConnections", "src/libnnp/Mode.cpp: readNeuralNetworkWeights"]}
{"id": "C96", "title": "Learning curve: every number belongs to the name of its column", "statement": "Every row of the learning curve file has, after the epoch, exactly one number for each column name of the header, and that number is what the name says: the metric (RMSE, MAE, per atom for energies) of that property over the training or test set, in physical units (as if the metric had been computed from the data converted to physical units) or in training units. All metrics of all training properties are there in physical units, and in training units too if the data are normalized. Appending keeps the previous rows.", "quantifier": "all lists of training properties, data sets, conversion factors, epochs and previous file contents", "why_tests_cant": "physical and training units differ only by factors, so a swapped or unconverted column looks plausible; a test compares a few numbers of one set-up", "anchors": ["src/libnnptrain/Training.cpp: writeLearningCurve, Property::Property", "src/libnnp/Mode.cpp: physical", "src/libnnp/Structure.cpp: toPhysicalUnits"]}
{"id": "C97", "title": "Neuron statistics cover all processes", "statement": "The neuron statistics file has one row for every neuron of every element's network, in the order of elements, layers and neurons. Each row gives number, minimum, maximum, mean and sample standard deviation of all values that neuron has seen since the last reset, on all processes together, however the evaluations are distributed (including processes without any).", "quantifier": "all networks, numbers of processes, histories of evaluations on each process, and numbers of elements", "why_tests_cant": "the numbers come from five separate reductions over arrays; an entry shifted by one neuron or a process without data shows only for particular networks and distributions", "anchors": ["src/libnnptrain/Training.cpp: writeNeuronStatistics", "src/libnnp/NeuralNetwork.cpp: getNeuronStatistics, resetNeuronStatistics, propagateLayer, setInput"]}
{"id": "C98", "title": "Comparison files contain every number behind the reported errors", "statement": "When comparison files for energies, forces or charges are written, the training file contains exactly one line for each reference value of each training structure of all processes (energy per structure, three components per atom, or charge per atom) and the test file those of the test structures; each line gives structure (and atom) index, reference and prediction under the column names of the header. The RMSE and MAE reported on every process for a set are those of the differences in its file.", "quantifier": "all data sets, numbers of processes, distributions (including empty processes) and labels", "why_tests_cant": "lines come from all processes and are concatenated; a structure written to the wrong file or a header repeated by another process appears only for particular distributions", "anchors": ["src/libnnptrain/Training.cpp: calculateError", "src/libnnptrain/Dataset.cpp: combineFiles, collectError", "src/libnnp/Structure.cpp: getEnergyLine, getForcesLines, getChargesLines", "src/libnnp/Atom.cpp: getForcesLines, getChargeLine"]}
{"id": "C99", "title": "The force check compares the right forces on any number of processes", "statement": "For every structure, displacement delta and number of processes the force check tool reports one row per force component, in order of atoms and coordinates, with the analytic force of the unaltered structure and the central difference -(E(+delta) - E(-delta))/(2 delta) of the energies of the two structures with that coordinate displaced; the summary is count, mean and maximum of the absolute deviations of these rows, with a warning exactly if one exceeds 10 delta^2. If the forces are the negative gradient of the energy, every deviation is at most M delta^2/6 for a bound M of the third derivative, so there is no warning for M up to 60.", "quantifier": "all structures, energies as functions of positions, displacements and numbers of processes, and all forces in the data file", "why_tests_cant": "the displaced structures are spread over processes, identified by a comment text and reassembled by sums of arrays; a wrong assignment shows only for particular numbers of atoms and processes", "anchors": ["src/application/nnp-checkf.cpp: main", "src/libnnptrain/Dataset.cpp: prepareNumericForces"]}
{"id": "C100", "title": "The elements and their energy offsets are those of the settings", "statement": "For every settings text whose listed element symbols differ, the element set-up succeeds exactly if all symbols are known, number_of_elements is their number and every atom_energy line has a listed symbol and a second word. Afterwards there is one element per symbol, ordered by atomic number, with its index, symbol and atomic number, and its energy offset is the second word of the last atom_energy line about it, or zero if there is none.", "quantifier": "all settings texts with distinct element symbols, in any order, and any number of atom_energy lines", "why_tests_cant": "the index of an element depends on the whole list of symbols and the offset on all lines of the file; tests use a few systems with the symbols in order and one line for each", "anchors": ["src/libnnp/Mode.cpp: setupElementMap, setupElements", "src/libnnp/Element.cpp: Element", "src/libnnp/ElementMap.cpp: registerElements"]}
{"id": "C101", "title": "Sensitivities are those of all atoms and reach the pruning tool", "statement": "For every data set and every distribution of its structures over processes the sensitivity analysis gives, for each element and symmetry function, the root mean square and the largest absolute value of the derivatives of the atomic energies over all atoms of that element, in internal and physical units and in percent of the sum over the symmetry functions (percentages are not negative and add up to 100). The file of an element lists them in order, and the pruning tool reads back from it the percentages of the chosen kind, to the nine printed digits; a file with another number of symmetry functions is rejected.", "quantifier": "all data sets, numbers of processes, distributions (including processes without structures) and numbers of symmetry functions", "why_tests_cant": "the sums and maxima are combined from all processes and the file is read by another program by column number; a wrong reduction or column shows only for particular data and distributions", "anchors": ["src/application/nnp-dataset.cpp: main", "src/application/nnp-prune.cpp: main"]}
{"id": "C102", "title": "LAMMPS cells and charges keep their meaning in the interface", "statement": "Whatever cell was passed before, after passing a LAMMPS cell (corners and tilt factors) the structure is periodic, points have the same fractional coordinates in its cell as in the LAMMPS cell, the distance to every periodic image is the LAMMPS distance in units of the potential, and the volume is that of the LAMMPS cell; the structure is marked triclinic exactly if the cell is not orthogonal. The charges passed back are those of the atoms they are assigned to, and the charges of ghost atoms are not changed.", "quantifier": "all cells, tilt factors, units, histories of cells, numbers of local atoms and assignments of types", "why_tests_cant": "cells follow each other in a simulation with any tilt, and the order of atoms is that of LAMMPS; tests run a few steps of one system with fixed cell and without ignored types", "anchors": ["src/libnnpif/LAMMPS/InterfaceLammps.cpp: setBoxVectors, setLocalAtoms, getCharges", "src/libnnp/Structure.cpp: calculateInverseBox, calculateVolume"]}
{"id": "C103", "title": "The normalization tool produces a normalized data set and the factors to undo it", "statement": "For every data set and every distribution of its structures over processes (with energies per atom and force components that are not all equal) the normalization tool writes structures whose energies per atom have mean zero and sample standard deviation one, whose force components have sample standard deviation one, and whose charges are at most one in absolute value, with one reached unless all are zero. The mean energy and conversion factors written to the settings turn every written energy, position, box vector, force and charge back into the original one, and they do not depend on the distribution.", "quantifier": "all data sets, numbers of processes and distributions (including processes without structures)", "why_tests_cant": "means and deviations are combined from all processes in two passes; a wrong count or reduction shows only for particular sizes of structures and distributions", "anchors": ["src/application/nnp-norm.cpp: main"]}
{"id": "C104", "title": "Comparison of two potentials and selection of structures", "statement": "The comparison tool pairs each process of the first potential with exactly one process of the second that holds the same share of the structures. It reports, for every structure, both energies and warning counts, the differences of energy and forces, and the mean and largest absolute force difference. The selection mode writes, in order, exactly the structures that exceed one of the active thresholds, and its summary counts them.", "quantifier": "all even numbers of processes, predictions of both potentials, thresholds and compared data sets", "why_tests_cant": "two communicators and raw messages connect the processes; potentials with different settings and structures near the thresholds are not in the sample data", "anchors": ["src/application/nnp-comp2.cpp: main", "src/libnnp/Mode.cpp: setupNeuralNetworkWeights"]}
{"id": "C105", "title": "Symmetry function shape files show the symmetry functions", "statement": "The shape file of a symmetry function tabulates its radial and angular part at equal steps up to the largest cutoff radius and the straight angle; the product of the parts at the distances and the angle of a neighbour or a pair of neighbours is its contribution to the symmetry function, in any unit of length.", "quantifier": "all eleven types, parameters, numbers of points, distances, angles and length units", "why_tests_cant": "the parts are separate code from the evaluation; they agree at the sampled points of one type and can differ elsewhere", "anchors": ["src/libnnp/SetupAnalysis.cpp: writeSymmetryFunctionShape", "src/libnnp/SymFncBaseExpAng.cpp: calculateRadialPart, calculateAngularPart", "src/libnnp/CompactFunction.h: CompactFunction::f"]}
