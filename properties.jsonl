{"id": "C01", "title": "TimeStamp values stay in normal form and denote the exact elapsed time", "statement": "Every TimeStamp produced by a constructor, setTime, +, -, += or -= from normalised operands either has 0 <= nanoseconds < 10^9 and denotes exactly the integer number of nanoseconds that the operation should produce, or the 32-bit seconds/nanoseconds arithmetic overflowed (undefined behaviour); the overflow case is exactly characterised.", "quantifier": "all int32 pairs (sec, nsec) and all sequences of arithmetic operations on them", "why_tests_cant": "2^64 operand pairs per operation; borrow/carry errors only show at sign changes and near the int32 limits", "anchors": ["include/TimeStamp.hpp:TimeStamp", "include/TimeStamp.hpp:TimeStamp::normalize", "src/TimeStamp.cpp:TimeStamp::setTime"]}
{"id": "C02", "title": "TimeStamp comparisons are a total order that agrees with elapsed time", "statement": "On normalised stamps exactly one of a<b, a==b, a>b holds, <=, >= and != are their Boolean combinations, the order is transitive, and a<b holds exactly when a denotes an earlier instant than b.", "quantifier": "all pairs and triples of normalised TimeStamps", "why_tests_cant": "order laws quantify over all triples; a test samples a handful", "anchors": ["include/TimeStamp.hpp:operator<", "include/TimeStamp.hpp:operator=="]}
{"id": "C03", "title": "TimeStamp addition and subtraction are inverse, commutative and monotone", "statement": "Whenever no overflow occurs, (a+b)-b is the same stamp as a, a+b equals b+a, a-a is zero, and a<b implies a+c<b+c.", "quantifier": "all normalised stamps for which the intermediate results fit in 32-bit seconds", "why_tests_cant": "algebraic laws over 2^96 inputs with carries and borrows", "anchors": ["include/TimeStamp.hpp:operator+", "include/TimeStamp.hpp:operator-", "include/TimeStamp.hpp:TimeStamp::normalize"]}
{"id": "C04", "title": "Gaussian mixture component count is always the number of live components", "statement": "After any sequence of add, remove, update, setWeight, merge, prune, sort and copy operations that does not hit undefined behaviour, getGaussianCount() equals the number of components that hold a landmark, and every empty slot has weight and previous weight zero.", "quantifier": "all operation histories on a mixture of any size", "why_tests_cant": "the claim is an invariant over unbounded operation histories", "anchors": ["include/GaussianMixture.hpp:GaussianMixture::getGaussianCount", "include/GaussianMixture.hpp:GaussianMixture::removeGaussian", "include/GaussianMixture.hpp:GaussianMixture::merge", "include/GaussianMixture.hpp:GaussianMixture::prune"]}
{"id": "C05", "title": "prune(t) removes exactly the components below the threshold", "statement": "prune(t) returns with the mixture holding, as a multiset, exactly the slots whose weight is >= t, sorted by non-increasing weight; it returns the number of removed slots; for t > 0 no empty slot is left and every index below getGaussianCount() is a live component.", "quantifier": "all reachable mixtures and all thresholds t", "why_tests_cant": "the binary search boundary must be right for every length, every threshold and every pattern of equal weights", "anchors": ["include/GaussianMixture.hpp:GaussianMixture::prune", "include/GaussianMixture.hpp:GaussianMixture::sortByWeight"]}
{"id": "C06", "title": "merge conserves total weight and first moment and reports how many components it removed", "statement": "merge(t, f) keeps the total weight of the live components and the weighted sum of their means, reduces getGaussianCount() by exactly the value it returns, and leaves untouched every component that took part in no merge.", "quantifier": "all mixtures with non-negative weights, all thresholds and inflation factors, all outcomes of the Mahalanobis test", "why_tests_cant": "conservation must hold over every chain of pairwise merges, i.e. for all sizes and distance patterns", "anchors": ["include/GaussianMixture.hpp:GaussianMixture::merge"]}
{"id": "C07", "title": "getWeightSum and normalizeWeights see every live component", "statement": "getWeightSum() equals the sum of the weights of all live components and after normalizeWeights() the live weights sum to one, whatever history of add/remove/merge/prune preceded the call.", "quantifier": "all operation histories", "why_tests_cant": "depends on the interleaving of removals and reads; the failing histories are rare in tests that always prune first", "anchors": ["include/GaussianMixture.hpp:GaussianMixture::getWeightSum", "include/GaussianMixture.hpp:GaussianMixture::normalizeWeights"]}
{"id": "C08", "title": "Copying a mixture gives an independent equal mixture", "statement": "copyTo and the copy constructor give a mixture that observably equals the source and shares no landmark storage with it, so later changes to either never show in the other, and no storage is leaked or freed twice.", "quantifier": "all mixtures (including after removals and merges), all targets (including the source itself), all later operation histories", "why_tests_cant": "aliasing and double frees depend on the whole later history", "anchors": ["include/GaussianMixture.hpp:GaussianMixture::copyTo", "include/GaussianMixture.hpp:GaussianMixture::GaussianMixture(const GaussianMixture&)"]}
{"id": "C09", "title": "pruneTracks keeps exactly the tracks with existence probability >= t", "statement": "GMMultiBernoulli::pruneTracks(t) leaves, as a multiset, exactly the tracks whose probability of existence is at least t, with their contents unchanged.", "quantifier": "all track lists and thresholds, all positions of the pruned tracks", "why_tests_cant": "the swap-with-last deletion has position-dependent failure modes", "anchors": ["include/GMBernoulliComponent.hpp:GMMultiBernoulli::pruneTracks"]}
{"id": "C10", "title": "Hungarian method returns an optimal assignment for every square matrix", "statement": "run(C, n, soln, cost, maximize) terminates, returns true, soln is a permutation of the columns, cost is the sum of the selected original entries, and no permutation has a larger (maximize) or smaller (minimize) sum.", "quantifier": "all n >= 1 and all integer-valued n x n matrices", "why_tests_cant": "optimality is a statement over n! assignments for every matrix; termination is over all execution paths", "anchors": ["include/HungarianMethod.hpp:HungarianMethod::run"]}
{"id": "C11", "title": "Hungarian method restores the cost matrix", "statement": "After run returns true every entry of the caller's matrix equals its value before the call, in both modes.", "quantifier": "all integer-valued matrices, both modes", "why_tests_cant": "the method mutates the matrix in place by data-dependent offsets", "anchors": ["include/HungarianMethod.hpp:HungarianMethod::run"]}
{"id": "C12", "title": "Hungarian method on a reducible cost matrix reports success and the optimum", "statement": "run(CostMatrix) returns true, with soln a permutation that is optimal for the (clamped) matrix and cost its score, for every cost matrix on which reduce() has been called.", "quantifier": "all cost matrices and limits", "why_tests_cant": "the result depends on the reduced size (0, 1, >1, not reduced), each a separate path", "anchors": ["src/HungarianMethod.cpp:HungarianMethod::run"]}
{"id": "C13", "title": "reduce() fixes only assignments that are part of some optimum", "statement": "After reduce(lim) the fixed pairs form a partial matching, the numbers of remaining rows and columns agree (the assertion never fires), the remap tables together with the fixed pairs cover each row and column exactly once, and fixed score plus the optimum of the reduced matrix is the optimum of the clamped matrix.", "quantifier": "all square matrices, limits, and both clamping directions", "why_tests_cant": "an exchange argument over all assignments of all sizes", "anchors": ["src/CostMatrix.cpp:CostMatrix::reduce", "src/CostMatrix.cpp:CostMatrix::getCostMatrixReduced"]}
{"id": "C14", "title": "reduce() can be called again", "statement": "A second reduce() on the same CostMatrix object leaves it in the state a single reduce() of the current matrix would produce.", "quantifier": "all matrices and limits", "why_tests_cant": "state left over from the first call matters; a test that calls it once never sees it", "anchors": ["src/CostMatrix.cpp:CostMatrix::reduce"]}
{"id": "C15", "title": "partition() splits rows and columns into independent blocks", "statement": "Every row and every column index lies in exactly one partition, every entry above the significance limit has its row and its column in the same partition, at most one partition (the combined zero partition) contains no significant entry, and two indices share a non-zero partition exactly when they are connected by a chain of significant entries.", "quantifier": "all nR x nC matrices with nR+nC >= 1", "why_tests_cant": "the in-place swap/merge of zero partitions must be right for every component numbering", "anchors": ["src/CostMatrix.cpp:CostMatrixGeneral::partition"]}
{"id": "C16", "title": "getPartition returns the block of the matrix it names, every time it is called", "statement": "getPartition(p) returns row and column indices and a matrix with Cp[r][c] = C[row[r]][col[c]] of the requested (plain or extended) allocation size, no matter how often or with what allocateExtendedMatrix flags it was called before.", "quantifier": "all call histories", "why_tests_cant": "the cached matrix makes the result depend on earlier calls", "anchors": ["src/CostMatrix.cpp:CostMatrixGeneral::getPartition", "src/CostMatrix.cpp:CostMatrixGeneral::getPartitionSize"]}
{"id": "C17", "title": "The association sum factorises over partitions", "statement": "The sum over all landmark/measurement association hypotheses of the product of detection, miss and clutter factors equals the product over partitions of the per-partition sums.", "quantifier": "all likelihood tables and all partitions of any size", "why_tests_cant": "an identity between sums over factorially many hypotheses", "anchors": ["include/RBPHDFilter.hpp:RBPHDFilter::rfsMeasurementLikelihood", "src/CostMatrix.cpp:CostMatrixGeneral::partition"]}
{"id": "C18", "title": "The zero partition contributes miss and clutter factors", "statement": "For a partition without any significant entry the likelihood contribution computed by the filters equals the product of (1-Pd) over its landmarks and the clutter intensities of its measurements, as it does for all other partitions.", "quantifier": "all Pd values and partitions", "why_tests_cant": "the value is silently wrong rather than failing", "anchors": ["include/RBPHDFilter.hpp:RBPHDFilter::rfsMeasurementLikelihood", "include/RBCBMeMBerFilter.hpp:RBCBMeMBerFilter::rfsMeasurementLikelihood", "include/RFSPSOSLAM.hpp:RFSPSOSLAM::rfsMeasurementLikelihood"]}
{"id": "C19", "title": "Murty's algorithm enumerates all assignments best first, each exactly once", "statement": "Repeated findNextBest calls return assignments in non-increasing score order, never repeat an assignment, return k on the k-th call, report the true score of each assignment, return all n! assignments and then -1, provided the exclusion constant dominates the matrix entries.", "quantifier": "all n >= 1, all integer matrices with bounded entries, all numbers of calls", "why_tests_cant": "a statement over complete n!-long histories for every n", "anchors": ["src/MurtyAlgorithm.cpp:Murty::findNextBest"]}
{"id": "C20", "title": "Murty's exclusion constant needs to dominate the matrix", "statement": "With the default constant 10000 findNextBest never reports the same assignment twice and never reports a worse assignment before a better one, whatever the entries of the matrix.", "quantifier": "all matrices, including log-likelihood matrices with large negative entries", "why_tests_cant": "fails only for entries beyond the constant", "anchors": ["src/MurtyAlgorithm.cpp:Murty::findNextBest", "include/MurtyAlgorithm.hpp:Murty::Murty"]}
{"id": "C21", "title": "Murty with a real-assignment block reports each real association once", "statement": "With setRealAssignmentBlock(nR,nC) successive results differ in the association of some real row to a real column or to 'unassigned', and every real association is eventually reported.", "quantifier": "all block sizes and matrices", "why_tests_cant": "needs complete enumeration histories", "anchors": ["src/MurtyAlgorithm.cpp:Murty::setRealAssignmentBlock", "src/MurtyAlgorithm.cpp:Murty::findNextBest"]}
{"id": "C22", "title": "The lexicographic enumerator lists every association hypothesis exactly once", "statement": "Successive next(o) calls return 1,2,3,... and enumerate, in lexicographic order and without repetition, exactly the ways to give each of nM landmarks a distinct measurement (or clutter when allowed); the tail lists the remaining measurements in increasing order; afterwards next returns 0.", "quantifier": "all nM, nZ (nM+nZ >= 1) and both clutter settings", "why_tests_cant": "completeness over factorially many hypotheses for every size", "anchors": ["src/PermutationLexicographic.cpp:PermutationLexicographic::next"]}
{"id": "C23", "title": "Brute-force assignment lists all n! assignments in score order and leaves the matrix alone", "statement": "run(C,n,a,s,maxToMin) returns n!, the rows of a are all permutations of 0..n-1 without repetition, s[k] is the score of a[k] in the caller's matrix, the scores are ordered as requested by maxToMin, and C is unchanged.", "quantifier": "all n >= 1, all matrices, both directions", "why_tests_cant": "statement over all n! results for all n", "anchors": ["src/BruteForceAssignment.cpp:BruteForceLinearAssignment::run"]}
{"id": "C24", "title": "Matrix permanent equals the sum over permutations", "statement": "For every n >= 1 the Nijenhuis-Wilf/Gray-code evaluation returns the permanent (sum over all permutations of products) of the n x n matrix; for non-square input it returns the documented error value.", "quantifier": "all n >= 1 and all matrices over the rationals", "why_tests_cant": "an identity between 2^n and n! terms for every n", "anchors": ["src/MatrixPermanent.cpp:MatPerm::calc"]}
{"id": "C25", "title": "Low-variance resampling copies each particle floor or ceiling of its expected count", "statement": "resample(n) returns true, keeps exactly n particles, and particle i appears floor(n*w_i) or ceil(n*w_i) times where w_i is its normalised weight; a particle with zero weight never appears; the scan never reads past the last particle.", "quantifier": "all particle counts, all non-negative weight vectors with positive sum, all random offsets in [0,1/n)", "why_tests_cant": "must hold for every random draw and weight vector, including ties and zero weights", "anchors": ["include/ParticleFilter.hpp:ParticleFilter::resample"]}
{"id": "C26", "title": "Resampling overwrites only slots that were not selected and fills every surviving slot", "statement": "After resample every slot below n holds the state of a selected particle, a selected particle with index below n keeps its own slot, the multiset of slot states equals the multiset of selected states, and all weights are one.", "quantifier": "all selections, all n not larger than the particle count", "why_tests_cant": "in-place copying order matters for every selection pattern", "anchors": ["include/ParticleFilter.hpp:ParticleFilter::resample"]}
{"id": "C27", "title": "Particle identifiers identify particles", "statement": "Particles in the set have pairwise distinct ids, and after a resample getParentId() of slot i names the slot whose state slot i now carries.", "quantifier": "all histories of addParticles, copyParticle and resample", "why_tests_cant": "duplicates only arise after a second resampling or addition", "anchors": ["include/ParticleFilter.hpp:ParticleFilter::addParticles", "include/ParticleFilter.hpp:ParticleFilter::copyParticle", "include/ParticleFilter.hpp:ParticleFilter::resample"]}
{"id": "C28", "title": "Parallel propagation gives the sequential result under every schedule", "statement": "propagate() executed by any number of OpenMP threads under any interleaving leaves every particle with the pose obtained by propagating its own previous pose.", "quantifier": "all thread counts, iteration distributions and interleavings", "why_tests_cant": "schedules cannot be enumerated by tests", "anchors": ["include/ParticleFilter.hpp:ParticleFilter::propagate"]}
{"id": "C29", "title": "Cached inverse, determinant, Cholesky factor and Mahalanobis distance always belong to the current covariance", "statement": "After any sequence of set/setCov/get/assignment operations, getCovInv, getCovDet, getCovCholeskyDecompLower and mahalanobisDist2 return what a freshly built vector with the same mean and covariance would return.", "quantifier": "all operation histories on any number of vectors", "why_tests_cant": "cache staleness depends on histories", "anchors": ["include/RandomVec.hpp:RandomVec::getCovInv", "include/RandomVec.hpp:RandomVec::getCovDet", "include/RandomVec.hpp:RandomVec::operator="]}
{"id": "C30", "title": "Gaussian likelihood uses the normalisation factor of the current covariance", "statement": "evalGaussianLikelihood returns the same value as on a freshly constructed vector with the same mean and covariance, for every preceding history of calls.", "quantifier": "all operation histories", "why_tests_cant": "needs a specific order of getter, assignment and likelihood calls", "anchors": ["include/RandomVec.hpp:RandomVec::evalGaussianLikelihood", "include/RandomVec.hpp:RandomVec::operator=", "include/RandomVec.hpp:RandomVec::getCovDet"]}
{"id": "C31", "title": "The spatial index stores exactly what was added and not removed", "statement": "After any sequence of addData and removeData inside the root box, the multiset of stored points is the multiset of added minus removed points, data counts reported by every node equal the number of points below it, and removeData reports success exactly for stored points.", "quantifier": "all operation histories, all dimensions, all splitting limits", "why_tests_cant": "invariant over histories with splits, root doubling and collapses", "anchors": ["include/SpatialIndexTree.hpp:SpatialIndexTree::addData", "include/SpatialIndexTree.hpp:SpatialIndexTree::removeData"]}
{"id": "C32", "title": "Box queries return no wrong and no duplicate points", "statement": "queryDataInBox returns only stored points inside the closed query box, each at most once.", "quantifier": "all trees and boxes", "why_tests_cant": "statement over all trees, incl. shared faces of closed boxes", "anchors": ["include/SpatialIndexTree.hpp:SpatialIndexTree::queryDataInBox"]}
{"id": "C33", "title": "Box queries miss no point", "statement": "queryDataInBox returns every stored point that lies in the closed query box.", "quantifier": "all trees and boxes", "why_tests_cant": "misses occur only for points exactly on cell faces", "anchors": ["include/SpatialIndexTree.hpp:SpatialIndexTree::queryDataInBox"]}
{"id": "C34", "title": "Nearest-point query returns a nearest stored point", "statement": "queryClosestPt returns a stored point with minimal Euclidean distance to the query whenever the index is not empty.", "quantifier": "all non-empty trees and query points", "why_tests_cant": "branch-and-bound pruning must be right for every tree shape", "anchors": ["include/SpatialIndexTree.hpp:SpatialIndexTree::queryClosestPt"]}
{"id": "C35", "title": "OSPA with p=1 is the optimal sub-pattern assignment error", "statement": "If not both sets are empty, calcError with p=1 returns (sum over the optimal matching of min(c, d) + c * |difference in cardinality|) / max cardinality, it lies in [0,c], is symmetric, zero for equal sets, and splits into the distance and cardinality parts it reports. For two empty sets the quotient is 0/0.", "quantifier": "all finite sets and all cut-offs", "why_tests_cant": "optimality over all matchings of all sizes", "anchors": ["include/OSPA.hpp:OSPA::calcError"]}
{"id": "C36", "title": "OSPA is optimal for every order p", "statement": "For every order p the returned error is minimal over all assignments.", "quantifier": "all p, all sets", "why_tests_cant": "only particular cost matrices separate the sum of costs from the sum of p-th powers", "anchors": ["include/OSPA.hpp:OSPA::calcError"]}
{"id": "C37", "title": "COLA is the OSPA error scaled by cardinality and cut-off", "statement": "If not both sets are empty and the cut-off is not zero, COLA's error equals the OSPA error (p=1) times the larger cardinality divided by the cut-off, is invariant under swapping the sets, and is zero exactly when the optimal cost is zero.", "quantifier": "all sets and cut-offs", "why_tests_cant": "quantifies over all sets", "anchors": ["include/COLA.hpp:COLA::calcError", "include/OSPA.hpp:OSPA::calcError"]}
{"id": "C38", "title": "JCBB never gives one landmark to two measurements", "statement": "The hypothesis returned by JCBB assigns distinct landmarks to distinct measurements and is a hypothesis with the largest number of jointly compatible associations.", "quantifier": "all compatibility tables, all joint-distance functions", "why_tests_cant": "search over exponentially many hypotheses", "anchors": ["include/JCBB.hpp:JCBB::branch"]}
{"id": "C39", "title": "PHD map update conserves detection weight per measurement", "statement": "After updateMap, for each measurement the weights of the Gaussians created from it sum to S/(clutter+S) where S is the sum of unnormalised weights, hence are in [0,1); missed-detection weights are (1-Pd) times the prior weight; measurements that produced no Gaussian are exactly those recorded as unused.", "quantifier": "all maps, measurement sets, likelihoods and detection probabilities", "why_tests_cant": "algebraic identity over tables of all sizes", "anchors": ["include/RBPHDFilter.hpp:RBPHDFilter::updateMap"]}
{"id": "C40", "title": "The weighting table is never indexed out of bounds", "statement": "For every sequence of updates with maps and measurement sets of any size, the shared weighting table is at least as large as the entries accessed, and is never freed twice or leaked.", "quantifier": "all sequences of (number of Gaussians, number of measurements)", "why_tests_cant": "depends on the history of sizes", "anchors": ["include/RBPHDFilter.hpp:RBPHDFilter::checkWeightingTableSize", "include/RBPHDFilter.hpp:RBPHDFilter::updateMap"]}
{"id": "C41", "title": "Birth-candidate processing visits every candidate once and never leaves the list", "statement": "Candidates with enough support (or when few landmarks are visible) become Gaussians, candidates checked too often are dropped, all others stay in order, and the scan never advances past the end of the list.", "quantifier": "all candidate lists, supports and thresholds", "why_tests_cant": "iterator validity depends on which element is erased", "anchors": ["include/RBPHDFilter.hpp:RBPHDFilter::addBirthGaussians", "include/FastSLAM.hpp:FastSLAM::updateMap"]}
{"id": "C42", "title": "CBMeMBer keeps exactly the updated tracks with non-zero existence probability", "statement": "After updateMap the track list contains all legacy tracks and exactly the measurement-updated tracks whose probability of existence is not zero.", "quantifier": "all patterns of zero / non-zero probabilities", "why_tests_cant": "position-dependent swap deletion", "anchors": ["include/RBCBMeMBerFilter.hpp:RBCBMeMBerFilter::updateMap"]}
{"id": "C43", "title": "LMB existence probabilities stay probabilities", "statement": "After updateMap every updated probability of existence lies in [0,1], and equals the association-weighted posterior of the partition.", "quantifier": "all likelihood tables and prior probabilities in [0,1]", "why_tests_cant": "sum over all hypotheses for all sizes", "anchors": ["include/RBLMBFilter.hpp:RBLMBFilter::updateMap"]}
{"id": "C44", "title": "FastSLAM applies every update", "statement": "Each updateMap call processes at least one data-association hypothesis: visible landmarks are updated and the particle weight is multiplied by the association likelihood, for every likelihood table.", "quantifier": "all likelihood tables", "why_tests_cant": "fails exactly when the association table reduces completely", "anchors": ["include/FastSLAM.hpp:FastSLAM::updateMap", "src/CostMatrix.cpp:CostMatrix::reduce"]}
{"id": "C45", "title": "PSO best-so-far records are monotone and truly best", "statement": "After any number of evaluate/move rounds the best likelihood recorded for a particle, and of the global best particle, equals the maximum of the likelihoods evaluated so far, under every thread schedule; and map and velocity vectors keep equal lengths.", "quantifier": "all histories and schedules", "why_tests_cant": "schedule- and history-dependent", "anchors": ["include/RFSPSOSLAM.hpp:RFSPSOSLAM::evaluateLikelihoods", "include/RFSPSOSLAM.hpp:RFSPSOSLAM::updateLandmarkVelocity"]}
{"id": "C46", "title": "PSO topology neighbourhoods are well formed", "statement": "After updateTopology every particle's neighbourhood contains the particle itself, only valid indices, and (in random mode) no index twice; moveParticles draws them anew exactly if the last evaluation found nothing better.", "quantifier": "all random draws and particle counts", "why_tests_cant": "quantifies over random draws", "anchors": ["include/RFSPSOSLAM.hpp:RFSPSOSLAM::updateTopology", "include/RFSPSOSLAM.hpp:365-368"]}
{"id": "C47", "title": "Batch SLAM input times stay sorted so measurements go to their own time step", "statement": "After any sequence of addInput calls the time stamps are sorted and a measurement whose time equals one of them is stored at that time step; any other time is rejected.", "quantifier": "all insertion orders", "why_tests_cant": "out-of-order insertions only", "anchors": ["include/RFSPSOSLAM.hpp:RFSPSOSLAM::addInput", "include/RFSPSOSLAM.hpp:RFSPSOSLAM::addMeasurement"]}
{"id": "C48", "title": "Kalman correction reduces variance and stays between prior and measurement", "statement": "For scalar models the corrected variance is at most the prior variance and non-negative, the corrected mean lies between the prior mean and the measured value, and repeated corrections equal the batch information-form estimate.", "quantifier": "all priors, measurements and noise levels", "why_tests_cant": "real-number identity over all sequences", "anchors": ["include/KalmanFilter.hpp:KalmanFilter::correct"]}
{"id": "C49", "title": "Angle normalisation terminates in the principal interval and preserves the angle modulo one turn", "statement": "The innovation wrap loops terminate and give an angle within [-pi, pi] that differs from the input by a whole number of turns.", "quantifier": "all real angles", "why_tests_cant": "unbounded loop over reals", "anchors": ["src/KalmanFilter.cpp:KalmanFilter::calculateInnovation", "src/MeasurementModel_RngBrg.cpp:MeasurementModel_RngBrg::measure"]}
{"id": "C50", "title": "Inverse measurement followed by measurement reproduces the measurement", "statement": "For each of the 1D range, XY, range-bearing and 6D models, measure(pose, inverseMeasure(pose, z)) has mean z for every pose (range non-negative, bearing in principal interval).", "quantifier": "all poses and measurements", "why_tests_cant": "continuous domain incl. quadrant boundaries", "anchors": ["src/MeasurementModel_RngBrg.cpp:MeasurementModel_RngBrg::inverseMeasure", "src/MeasurementModel_XY.cpp:MeasurementModel_XY::measure", "src/MeasurementModel_Rng1D.cpp:MeasurementModel_Rng1D::measure", "src/MeasurementModel_6D.cpp:MeasurementModel_6D::measure"]}
{"id": "C51", "title": "Detection probability and sensing-limit flags partition the range axis", "statement": "probabilityOfDetection is the configured value exactly inside the closed range limits and 0 outside; the close-to-limit flag is set exactly within the buffer around either limit.", "quantifier": "all ranges and configurations with rangeLimMin_ <= rangeLimMax_", "why_tests_cant": "boundary conditions over a continuous axis", "anchors": ["src/MeasurementModel_RngBrg.cpp:MeasurementModel_RngBrg::probabilityOfDetection", "src/MeasurementModel_6D.cpp:MeasurementModel_6D::probabilityOfDetection"]}
{"id": "C52", "title": "Odometry propagation composes", "statement": "Propagating a pose by two relative displacements in turn gives the pose obtained by the composed displacement, and a zero displacement changes nothing.", "quantifier": "all poses and inputs", "why_tests_cant": "continuous domain", "anchors": ["src/ProcessModel_Odometry2D.cpp:MotionModel_Odometry2d::step", "src/ProcessModel_Odometry1D.cpp:MotionModel_Odometry1d::step"]}
{"id": "C53", "title": "getMaxGaussian returns a live Gaussian of maximal weight", "statement": "GMBernoulliComponent::getMaxGaussian returns a non-NULL pointer to a component whose weight is at least that of every other component.", "quantifier": "all mixtures with at least one component, including those with removed components", "why_tests_cant": "depends on where removed components sit", "anchors": ["include/GMBernoulliComponent.hpp:GMBernoulliComponent::getMaxGaussian"]}
{"id": "C54", "title": "Single-component operations change exactly the addressed component", "statement": "setWeight, updateGaussian, removeGaussian, addGaussian, multiplyWeights and addGM change the landmark, weight and previous weight of the addressed components as documented and nothing else; updateGaussian returns false for every index without a component.", "quantifier": "all well-formed mixtures, indices, landmarks and weights", "why_tests_cant": "quantifies over all mixtures; the boundary index is a single point", "anchors": ["include/GaussianMixture.hpp:GaussianMixture::setWeight", "include/GaussianMixture.hpp:GaussianMixture::updateGaussian", "include/GaussianMixture.hpp:GaussianMixture::removeGaussian", "include/GaussianMixture.hpp:GaussianMixture::addGM"]}
{"id": "C55", "title": "sortByWeight leaves the weights non-increasing", "statement": "After sortByWeight() the component weights are non-increasing by index and the components are a permutation of the previous ones.", "quantifier": "all histories of operations before the call", "why_tests_cant": "depends on a cached flag and so on the history", "anchors": ["include/GaussianMixture.hpp:GaussianMixture::sortByWeight", "include/GaussianMixture.hpp:GaussianMixture::multiplyWeights"]}
{"id": "C56", "title": "merge(t) leaves no mergeable pair", "statement": "After merge(t) no two components are within Mahalanobis distance t of each other.", "quantifier": "all mixtures and thresholds", "why_tests_cant": "needs three components in special position", "anchors": ["include/GaussianMixture.hpp:GaussianMixture::merge"]}
{"id": "C57", "title": "GMMultiBernoulli::copyTo makes an equal, independent copy", "statement": "After a.copyTo(&b), b shows the same tracks as a, whatever it contained before; a is unchanged, no landmark is shared or leaked.", "quantifier": "all pairs of track lists", "why_tests_cant": "ownership over all shapes of source and destination", "anchors": ["include/GMBernoulliComponent.hpp:GMMultiBernoulli::copyTo"]}
{"id": "C58", "title": "Resampling is triggered exactly by a low effective number of particles", "statement": "Without force, resample() returns false and only normalises the weights exactly when the effective number of particles 1/sum(w_i^2) exceeds the threshold and its share exceeds the percentage threshold; otherwise it acts like a forced resample.", "quantifier": "all particle sets, weights and thresholds, including filters whose threshold was never set", "why_tests_cant": "the decision depends on every weight vector and on members that some constructors leave uninitialised", "anchors": ["include/ParticleFilter.hpp:ParticleFilter::resample", "include/ParticleFilter.hpp:ParticleFilter::ParticleFilter", "include/ParticleFilter.hpp:ParticleFilter::setEffectiveParticleCountThreshold"]}
{"id": "C59", "title": "Resampling does not need extra particle data", "statement": "resample() of particles made by addParticles() is defined whether or not setData() has been called on them, and every surviving particle has the data of its source.", "quantifier": "all particle sets, selections", "why_tests_cant": "only selections that duplicate a particle without data show the null dereference", "anchors": ["include/ParticleFilter.hpp:ParticleFilter::resample", "include/Particle.hpp:Particle::copy"]}
{"id": "C60", "title": "OSPA and COLA with p=1 satisfy the triangle inequality", "statement": "For non-negative distances with the triangle inequality, the OSPA error with p=1 of X and Z is at most the sum of the errors of X and Y and of Y and Z, whatever the cardinalities; the same holds for COLA.", "quantifier": "all sets X, Y, Z of any sizes, all cut-offs", "why_tests_cant": "statement over all triples of sets; the normalisation by different cardinalities matters", "anchors": ["include/OSPA.hpp:OSPA::calcError", "include/COLA.hpp:COLA::calcError"]}
{"id": "C61", "title": "A resampled particle continues with the birth candidates of the particle it copies", "statement": "After a resampling, predict gives each copied particle the birth candidates and unused measurements its parent had at the update, so that the copy gets the same births as the parent.", "quantifier": "all parent assignments, candidate lists and measurement sets", "why_tests_cant": "the loop reads parent slots that it may already have processed; whether a test notices depends on the drawn parents", "anchors": ["include/RBPHDFilter.hpp:1004-1014", "include/ParticleFilter.hpp:455-489"]}
{"id": "C62", "title": "Unused measurements refer to the current measurement set", "statement": "Every measurement number that addBirthGaussians reads is below the size of the stored measurement set, for every order of update and predict calls.", "quantifier": "all histories of update and predict calls", "why_tests_cant": "only unusual call orders (an update without measurements right after one with) leave stale numbers behind", "anchors": ["include/RBPHDFilter.hpp:446-454", "include/RBPHDFilter.hpp:1016-1021"]}
{"id": "C63", "title": "LMB birth probability complements the association probability", "statement": "A measurement becomes a birth candidate with probability min(maxPE, 1 - posterior probability that it came from an existing track) whenever that exceeds minPE, and not otherwise.", "quantifier": "all maps, likelihood tables, clutter intensities and measurement sets", "why_tests_cant": "the sum over association hypotheses is only normalised per partition; a test compares single numbers in one partition layout", "anchors": ["include/RBLMBFilter.hpp:835-864"]}
{"id": "C64", "title": "LMB updated mixture is the Bayes posterior of the track", "statement": "In the updated mixture of a track, the Gaussians corrected with measurement z together carry the posterior probability that the track gave z, given that it exists; weights are non-negative and sum to one and come from old Gaussians only.", "quantifier": "all maps, mixtures, likelihood tables and measurement sets", "why_tests_cant": "weights depend on sums over all association hypotheses; a test sees only plausible-looking mixtures", "anchors": ["include/RBLMBFilter.hpp:615-651", "include/RBLMBFilter.hpp:818-828"]}
{"id": "C65", "title": "FastSLAM landmark weight is the posterior log-odds of existence", "statement": "After any history of detections and misses, the weight of a landmark in FastSLAM is the log-odds of its Bayes posterior probability of existence under the configured prior, detection and false-alarm probabilities (misses ignored above the lock weight).", "quantifier": "all histories of detections and misses, all probabilities of detection and false alarm, all priors in (0,1)", "why_tests_cant": "the error for other priors than the default grows by a constant per update and never shows up in a test that keeps the default", "anchors": ["include/FastSLAM.hpp:598-632", "include/FastSLAM.hpp:646"]}
{"id": "C66", "title": "FastSLAM hypotheses are different associations", "statement": "The particles that one FastSLAM map update creates from a particle stand for pairwise different landmark-measurement associations.", "quantifier": "all maps, measurement sets and likelihoods", "why_tests_cant": "repeated hypotheses only come from padding of the square table, for particular counts of landmarks and measurements", "anchors": ["include/FastSLAM.hpp:471-545"]}
{"id": "C67", "title": "Left-over candidate lists do not influence FastSLAM", "statement": "The outcome of a map update depends on the particles and their own landmark candidates only, not on candidate lists left in slots that held no particle; a new particle starts with the candidates of its parent.", "quantifier": "all states, including all contents of unused slots", "why_tests_cant": "needs histories in which the particle count shrank and grew again without resampling in between", "anchors": ["include/FastSLAM.hpp:556-571", "include/FastSLAM.hpp:390-402"]}
{"id": "C68", "title": "Every measurement is compared with the pose of its own time", "statement": "When the batch optimiser evaluates a particle, every measurement is compared with the pose whose time is the measurement's time, the motion between two poses uses their time difference, and no vector is read out of bounds.", "quantifier": "all inputs and measurement sets handed over through the public calls", "why_tests_cant": "the two ways to hand over inputs give vectors of different lengths; an off-by-one in the pose only changes likelihood values", "anchors": ["include/RFSPSOSLAM.hpp:281-320", "include/RFSPSOSLAM.hpp:640-662", "include/RFSPSOSLAM.hpp:722-735"]}
{"id": "C69", "title": "PSO particles are attracted to the best record in their neighbourhood", "statement": "moveParticles attracts a particle to the recorded best of that member of its neighbourhood whose recorded best likelihood is greatest.", "quantifier": "all swarms, topologies and histories", "why_tests_cant": "the choice differs only after a neighbour has moved away from its record; motion is random, so tests see plausible moves either way", "anchors": ["include/RFSPSOSLAM.hpp:365-430"]}
{"id": "C70", "title": "Global mode makes every particle a neighbour", "statement": "After updateTopology with use_global set, the neighbourhood of every particle is the whole swarm.", "quantifier": "all previous topologies", "why_tests_cant": "needs a switch of the mode with an unchanged number of particles", "anchors": ["include/RFSPSOSLAM.hpp:323-340"]}
{"id": "C71", "title": "Moving a map keeps landmarks with their velocities and adds each best landmark once", "statement": "After updateLandmarkVelocity the map consists of the landmarks that were not dropped, each with its own updated velocity, and of landmarks of the two best maps that no landmark is associated with, each at most once.", "quantifier": "all maps, random draws and distances", "why_tests_cant": "depends on the interplay of swap-with-last deletion in two vectors, two assignments and random draws", "anchors": ["include/RFSPSOSLAM.hpp:504-618"]}
{"id": "C72", "title": "Correcting with several measurements agrees with correcting with each of them", "statement": "The overload of KalmanFilter::correct for several measurements leaves at every index exactly what the overload for one measurement leaves for that measurement, and likelihood and distance 0 for a measurement that is not usable.", "quantifier": "all models, landmarks, measurement lists and output vectors of any length", "why_tests_cant": "the two overloads are separate code; their results meet only in likelihood values that no test compares", "anchors": ["include/KalmanFilter.hpp:218-268", "include/KalmanFilter.hpp:270-351"]}
{"id": "C73", "title": "Every output asked for is written when a correction succeeds", "statement": "When correct returns true, each of the likelihood and the Mahalanobis distance whose pointer is not NULL holds the value of this call; when it returns false nothing is written.", "quantifier": "all models, measurements and combinations of NULL and non-NULL pointers", "why_tests_cant": "a value that is not written is whatever the caller had there before", "anchors": ["include/KalmanFilter.hpp:218-268"]}
{"id": "C74", "title": "Static prediction adds the noise and advances the time", "statement": "Predicting a landmark with the static process model over a sequence of time steps keeps the mean, adds the noise once per step and advances the time stamp by the sum of the steps.", "quantifier": "all states, noise settings (including none) and sequences of steps", "why_tests_cant": "depends on a sequence and on whether noise was ever configured", "anchors": ["include/ProcessModel.hpp:314-327", "include/KalmanFilter.hpp:208-216"]}
{"id": "C75", "title": "The reported distance is that of the innovation used", "statement": "The Mahalanobis distance returned by KalmanFilter::correct for range-bearing measurements is that of the innovation the mean was corrected with.", "quantifier": "all expected and actual range-bearing measurements and covariances", "why_tests_cant": "differs only for measurements on the two sides of the cut at half a turn", "anchors": ["src/KalmanFilter.cpp:28-42", "include/RandomVec.hpp:428-471", "include/KalmanFilter.hpp:218-268"]}
{"id": "C76", "title": "A correction always returns", "statement": "KalmanFilter::correct returns to its caller for every landmark and measurement with a positive innovation variance.", "quantifier": "all landmarks, poses and measurements, with and without assertions compiled in", "why_tests_cant": "the failing case is one point of a continuum", "anchors": ["include/KalmanFilter.hpp:253"]}
{"id": "C77", "title": "The Jacobians reported by measure are derivatives", "statement": "Whenever MeasurementModel::measure reports Jacobians with respect to landmark and pose, moving landmark or pose along any smooth path changes the expected measurement at the rate the Jacobian gives.", "quantifier": "all poses, landmarks and smooth paths; range positive and bearing not at the cut for the range-bearing model, unit quaternions for the 6D model", "why_tests_cant": "a derivative over a continuum of directions; finite differences only approximate it at samples", "anchors": ["src/MeasurementModel_RngBrg.cpp:95-99", "src/MeasurementModel_XY.cpp:96-101", "src/MeasurementModel_Rng1D.cpp:85-90", "src/MeasurementModel_6D.cpp:105-110"]}
{"id": "C78", "title": "The clutter integral is the integral of the clutter intensity", "statement": "clutterIntensityIntegral() equals the integral of clutterIntensity(z) over all measurements z within the sensing limits.", "quantifier": "all configurations with 0 <= rangeLimMin_ <= rangeLimMax_", "why_tests_cant": "an integral over a continuum", "anchors": ["src/MeasurementModel_RngBrg.cpp:175", "src/MeasurementModel_XY.cpp:181", "src/MeasurementModel_Rng1D.cpp:156", "src/MeasurementModel_6D.cpp:190", "src/MeasurementModel_RngBrg_amplitude.cpp:169"]}
{"id": "C79", "title": "The covariance of a new landmark is the measurement noise seen through the sensor", "statement": "For the landmark that inverseMeasure creates from a measurement, measure expects a covariance made of the noise of the measurement that created it, the pose uncertainty and the sensor noise, with no distortion.", "quantifier": "all poses, noises and measurements of positive range, unit quaternions", "why_tests_cant": "matrix identities over a continuum of poses", "anchors": ["src/MeasurementModel_RngBrg.cpp:117", "src/MeasurementModel_XY.cpp:119", "src/MeasurementModel_6D.cpp:128", "src/MeasurementModel_Rng1D.cpp:104"]}
{"id": "C80", "title": "measure accepts exactly the detectable landmarks", "statement": "measure returns true for a landmark exactly when probabilityOfDetection gives the configured probability for it rather than zero.", "quantifier": "all poses, landmarks and configurations", "why_tests_cant": "two functions compute the range in different ways over a continuum", "anchors": ["src/MeasurementModel_6D.cpp:118-126", "src/MeasurementModel_6D.cpp:153", "src/MeasurementModel_RngBrg.cpp:111", "src/MeasurementModel_XY.cpp:112", "src/MeasurementModel_Rng1D.cpp:97"]}
{"id": "C81", "title": "Every step advances the time", "statement": "After any sequence of ProcessModel::step calls in place the time stamp of the pose is the starting time plus the sum of the time steps.", "quantifier": "all sequences of inputs and time steps, for each process model", "why_tests_cant": "sequences of any length", "anchors": ["src/ProcessModel_Odometry1D.cpp:57", "src/ProcessModel_Odometry2D.cpp:91", "src/ProcessModel_Odometry6D.cpp:83", "src/ProcessModel_Ackerman2D.cpp:80"]}
{"id": "C82", "title": "The Jacobian reported by step is the derivative of the new pose", "statement": "When step is given a matrix for the Jacobian, moving the old pose along any smooth path moves the new pose at the rate the matrix gives.", "quantifier": "all poses, inputs and smooth paths, heading not at the cut", "why_tests_cant": "a derivative over a continuum of directions", "anchors": ["src/ProcessModel_Odometry2D.cpp:93", "src/ProcessModel_Odometry1D.cpp:59", "src/ProcessModel_Odometry6D.cpp:47", "src/ProcessModel_Ackerman2D.cpp:51"]}
{"id": "C83", "title": "The heading of a propagated pose stays within half a turn either way", "statement": "Starting from a heading in [-pi, pi], the heading after any sequence of steps or samples is again in [-pi, pi], and equals the sum of the turns up to whole turns.", "quantifier": "all sequences of inputs", "why_tests_cant": "sequences of any length over a continuum", "anchors": ["src/ProcessModel_Ackerman2D.cpp:74", "src/ProcessModel_Odometry2D.cpp:88", "include/ProcessModel.hpp:148"]}
{"id": "C84", "title": "Whole turns make no difference to the likelihood of a motion", "statement": "ProcessModel::likelihood gives the same value when a whole turn is added to the heading before, the heading after or the turn of the input.", "quantifier": "all poses, inputs and numbers of turns", "why_tests_cant": "continuous domain, the difference shows only across the cut", "anchors": ["include/ProcessModel.hpp:172", "include/RandomVec.hpp:426"]}
{"id": "C85", "title": "Sampling uses only what was configured", "statement": "ProcessModel::sample reads no member that was never set, for every constructor and argument, and equals step when no noise is configured.", "quantifier": "all models, inputs and flags", "why_tests_cant": "reading an uninitialised member usually goes unnoticed", "anchors": ["include/ProcessModel.hpp:148", "include/ProcessModel.hpp:64", "src/ProcessModel_Ackerman2D.cpp:34"]}
{"id": "C86", "title": "pose_grad is the gradient of the returned value", "statement": "likelihood and logLikelihood with a pose_grad argument write the derivative of the value they return by the pose.", "quantifier": "all dimensions, poses, predictions and symmetric covariances, in every direction", "why_tests_cant": "a derivative over a continuum of directions", "anchors": ["include/ProcessModel.hpp:205", "include/ProcessModel.hpp:247"]}
{"id": "C87", "title": "The log-likelihood is the logarithm of the likelihood", "statement": "evalGaussianLogLikelihood returns the logarithm of what evalGaussianLikelihood returns, minus infinity for zero.", "quantifier": "all covariances and evaluation points, including infinite distances", "why_tests_cant": "special values of floating point over a continuum", "anchors": ["include/RandomVec.hpp:456", "include/RandomVec.hpp:477"]}
{"id": "C88", "title": "The rotation of a pose in space keeps length one", "statement": "Starting from a unit quaternion, the quaternion of the pose has length one after any sequence of steps or samples of the 6D odometry model.", "quantifier": "all sequences of inputs with non-zero rotation", "why_tests_cant": "sequences of any length over a continuum", "anchors": ["src/ProcessModel_Odometry6D.cpp:69", "include/ProcessModel.hpp:148"]}
{"id": "C89", "title": "CB-MeMBer probabilities of existence stay probabilities", "statement": "After an update every legacy track has the probability that it exists given that it was missed, never more than before, and the track of every measurement has a probability in [0,1] given by the CB-MeMBer equation.", "quantifier": "all maps, mixtures, detection probabilities, likelihoods and measurement sets", "why_tests_cant": "the division 0/0 needs a track that is certain and always seen; NaN passes every comparison in silence", "anchors": ["include/RBCBMeMBerFilter.hpp:559-622"]}
{"id": "C90", "title": "CB-MeMBer tracks of measurements have proper mixtures", "statement": "The mixture of a track created for a measurement consists of the corrections of the Gaussians in view, weighted by odds of existence, detection probability, likelihood and old weight; the weights are finite, not negative and sum to one.", "quantifier": "all maps, mixtures, likelihoods and measurement sets", "why_tests_cant": "needs a track whose probability is exactly one, after which all weights are NaN", "anchors": ["include/RBCBMeMBerFilter.hpp:593-622"]}
{"id": "C91", "title": "A CB-MeMBer measurement is unused exactly if no track explains it", "statement": "updateMap lists a measurement as unused, and so as the place of a birth track, exactly if no track can have given it.", "quantifier": "all maps, likelihoods and measurement sets", "why_tests_cant": "the list is private; a duplicate track appears one predict later", "anchors": ["include/RBCBMeMBerFilter.hpp:528-534", "include/RBCBMeMBerFilter.hpp:589-640"]}
{"id": "C92", "title": "CB-MeMBer expected number of landmarks is the Bayes expectation", "statement": "The sum of the probabilities of existence after updateMap is the expected number of landmarks under the exact Bayes posterior given the measurements.", "quantifier": "all maps of any size and all measurement sets", "why_tests_cant": "compares a closed formula with a sum over exponentially many joint events", "anchors": ["include/RBCBMeMBerFilter.hpp:559-640"]}
{"id": "C93", "title": "Every measurement left unused becomes one birth track of its particle", "statement": "For every order of update and predict calls, the CB-MeMBer and LMB filters give each particle exactly one birth track for each measurement it (or the particle it was copied from) left unused, and read no stored value out of bounds.", "quantifier": "all histories of update and predict calls, any number of particles, all resamplings", "why_tests_cant": "only call orders with an empty update, and resamplings that change slots, expose it", "anchors": ["include/RBCBMeMBerFilter.hpp:306-334", "include/RBCBMeMBerFilter.hpp:428-510", "include/RBLMBFilter.hpp:303-332", "include/RBLMBFilter.hpp:428-512"]}
{"id": "C94", "title": "Seeing nothing lowers the existence of landmarks in view", "statement": "An update in which a track in view is not seen lowers its probability of existence, also when the sensor reports no measurement at all; tracks out of view keep theirs.", "quantifier": "all maps and measurement sets, the empty one included", "why_tests_cant": "needs frames without any measurement and a look at single probabilities", "anchors": ["include/RBCBMeMBerFilter.hpp:428-435", "include/RBCBMeMBerFilter.hpp:559-581"]}
{"id": "C95", "title": "RFSCeresSLAM scan value is the log of the sum over all associations", "statement": "rfsMeasurementLogLikelihood returns the logarithm of the sum, over all associations of measurements to landmarks in view, of likelihoods, detection, missed-detection and clutter factors, less the integral of the clutter.", "quantifier": "all maps, scans, likelihoods, known and unknown associations", "why_tests_cant": "compares a partitioned K-best sum with a sum over exponentially many associations", "anchors": ["include/RFSCeresSLAM.hpp:868-1184"]}
{"id": "C96", "title": "RFSCeresSLAM gradient of a scan is the derivative of its value", "statement": "The landmark and pose gradients that rfsMeasurementLogLikelihood returns are the derivatives of the value it returns.", "quantifier": "all maps, scans, block structures and association lists", "why_tests_cant": "a derivative for all directions; finite differences only test single points", "anchors": ["include/RFSCeresSLAM.hpp:981-988", "include/RFSCeresSLAM.hpp:1099-1157", "include/RandomVec.hpp:530-549"]}
{"id": "C97", "title": "Landmark numbers mean the same landmark in associations, map and gradient", "statement": "Association m and gradient segment m refer to landmark m of the map, also when other landmarks are out of view.", "quantifier": "all sets of landmarks in view", "why_tests_cant": "only appears with landmarks out of view before others", "anchors": ["include/RFSCeresSLAM.hpp:895-911", "include/RFSCeresSLAM.hpp:957-988", "include/RFSCeresSLAM.hpp:1111-1148"]}
{"id": "C98", "title": "Evaluating a scan does not throw", "statement": "rfsMeasurementLogLikelihood returns for every scan, whatever associations are known.", "quantifier": "all scans, associations and rankings of assignments", "why_tests_cant": "needs known and unknown associations in one block and a low-ranked assignment", "anchors": ["include/RFSCeresSLAM.hpp:964-988", "include/RFSCeresSLAM.hpp:1099-1148"]}
{"id": "C99", "title": "initMap makes every landmark from a measurement", "statement": "initMap makes landmark j from the first measurement associated with it, and one further landmark for every drawn measurement of unknown association, nothing else.", "quantifier": "all scans, associations and draws", "why_tests_cant": "all sequences of scans of any length and all draws", "anchors": ["include/RFSCeresSLAM.hpp:378-428"]}
{"id": "C100", "title": "The parameter vector and the gradient describe the trajectory and the map", "statement": "The array of init, read back by Evaluate, gives the same poses (the first at zero) and landmarks; every array of the announced length is such a description; the gradient has the same layout.", "quantifier": "all dimensions, trajectory lengths and map sizes", "why_tests_cant": "index arithmetic for all sizes at once", "anchors": ["include/RFSCeresSLAM.hpp:344-362", "include/RFSCeresSLAM.hpp:431-436", "include/RFSCeresSLAM.hpp:470-515"]}
{"id": "C101", "title": "RFSCeresSLAM motion gradient is the derivative of the motion log-likelihood", "statement": "The trajectory gradient of the motion terms is the derivative of their sum by the poses.", "quantifier": "all trajectories, inputs and covariances", "why_tests_cant": "a derivative for all directions and trajectory lengths", "anchors": ["include/RFSCeresSLAM.hpp:518-558", "include/ProcessModel.hpp:247-271"]}
{"id": "C102", "title": "RFSCeresSLAM compares measurements and inputs with the poses of their times", "statement": "Every measurement is evaluated at the pose of its time, every motion term joins successive poses with the input between them, and nothing is read out of bounds.", "quantifier": "all sequences of inputs and measurements", "why_tests_cant": "call orders and sizes are unbounded", "anchors": ["include/RFSCeresSLAM.hpp:268-340", "include/RFSCeresSLAM.hpp:518-558"]}
{"id": "C103", "title": "A bearing measurement is as likely as the same direction a turn further", "statement": "The log-likelihood of a range-bearing measurement depends on the direction only, not on the number of turns of the bearing.", "quantifier": "all expected and actual measurements", "why_tests_cant": "the border of the angle range is a null set that random tests miss", "anchors": ["include/RandomVec.hpp:530-549", "include/RFSCeresSLAM.hpp:970-976"]}
{"id": "C104", "title": "Single-cluster weighting multiplies the particle weight by the probability of the measurements", "statement": "With useClusterProcess the weight of a particle is multiplied by exp(-expected detections) times the product over the measurements of clutter intensity plus support; landmarks out of view do not matter.", "quantifier": "all maps, measurement sets, weights", "why_tests_cant": "arbitrary maps; the factor is only visible in ratios between particles", "anchors": ["include/RBPHDFilter.hpp:570-578", "include/RBPHDFilter.hpp:640-668"]}
{"id": "C105", "title": "The evaluation points of the PHD weighting are the heaviest detectable Gaussians", "statement": "The points are the Gaussians of highest weight among those with at least the configured weight and positive probability of detection, as many as configured, all if the setting is negative.", "quantifier": "all maps, all settings other than 0", "why_tests_cant": "all orders of weights, eligible and ineligible Gaussians mixed; signed and unsigned comparison", "anchors": ["include/RBPHDFilter.hpp:731-764"]}
{"id": "C106", "title": "The PHD filter multiplies the particle weight by the measurement likelihood at the points over the intensity ratio", "statement": "The new weight is the old one times likelihood of the measurements given landmarks at the evaluation points, times intensity before over intensity after the update at the points, times exp of the change of the expected number of landmarks.", "quantifier": "all maps, measurement sets, sensors and settings", "why_tests_cant": "a sum over exponentially many associations, arbitrary sensors", "anchors": ["include/RBPHDFilter.hpp:731-822", "include/RBPHDFilter.hpp:824-1010"]}
{"id": "C107", "title": "Particles that see none of their landmarks are weighted alike", "statement": "If no landmark of two particles is in view, a measurement set multiplies both weights by the same factor.", "quantifier": "all pairs of maps, measurement sets", "why_tests_cant": "relational over two executions with different maps", "anchors": ["include/RBPHDFilter.hpp:731-822"]}
{"id": "C108", "title": "The new particle weight is proportional to the old one", "statement": "For given map and measurements there is a factor, not negative, by which every weight is multiplied.", "quantifier": "all maps, measurement sets, weights", "why_tests_cant": "relational over all weights", "anchors": ["include/RBPHDFilter.hpp:731-822", "include/RBPHDFilter.hpp:487-498"]}
{"id": "C109", "title": "The CB-MeMBer filter multiplies the particle weight by the probability of the measurements given the tracks", "statement": "The factor is the sum over all joint events (track gone, missed, seen by a measurement) of their probabilities, up to a constant common to all particles.", "quantifier": "all maps, measurement sets", "why_tests_cant": "sum over exponentially many events", "anchors": ["include/RBCBMeMBerFilter.hpp:528-534", "include/RBCBMeMBerFilter.hpp:583-646", "include/RBCBMeMBerFilter.hpp:653-800"]}
{"id": "C110", "title": "The simulated world has the configured number of landmarks and segments", "statement": "generateLandmarks makes nLandmarks_ landmarks and generateTrajectory nSegments_ segments for every number of steps.", "quantifier": "all kMax, nLandmarks_, nSegments_ >= 0", "why_tests_cant": "the count depends on integer division of two settings; a test fixes one pair", "anchors": ["include/RBPHDSLAM_2D.hpp:348-374", "include/RBPHDSLAM_2D.hpp:427-466"]}
{"id": "C111", "title": "Every landmark is made within sensing range of the trajectory", "statement": "A landmark made at step k lies within rangeLimitMax_ of the pose of step k.", "quantifier": "all poses, draws, both two-dimensional sensors", "why_tests_cant": "real trigonometry over all draws", "anchors": ["include/RBPHDSLAM_2D.hpp:441-461"]}
{"id": "C112", "title": "The number of false alarms follows the Poisson distribution", "statement": "For every mean and every uniform draw u the number of false alarms is the n with CDF(n-1) < u <= CDF(n).", "quantifier": "all means >= 0, all u in [0,1)", "why_tests_cant": "values of u near 1 and large means are never drawn in a test; the failure is a read past the end of an array", "anchors": ["include/RBPHDSLAM_2D.hpp:484-498", "include/RBPHDSLAM_2D.hpp:538-542"]}
{"id": "C113", "title": "False alarms lie within the limits of the sensor", "statement": "A simulated false alarm lies between rangeLimitMin_ and rangeLimitMax_, and drawing one ends.", "quantifier": "all streams of draws, limits, the two- and three-dimensional simulators", "why_tests_cant": "quantifies over infinite streams of random numbers", "anchors": ["include/RBPHDSLAM_2D.hpp:543-560", "src/rbphdslam6dSim.cpp:416-428"]}
{"id": "C114", "title": "The recorded first observation time is the time of the first measurement", "statement": "lmkFirstObsTime_[m] is the time of the first measurement of landmark m, -1 if it is never measured.", "quantifier": "all visibility and detection histories, numbers of steps and landmarks", "why_tests_cant": "depends on random missed detections over all steps", "anchors": ["include/RBPHDSLAM_2D.hpp:500-536"]}
{"id": "C115", "title": "Every measurement reaches the filter once, at its time", "statement": "run passes to the update of step k exactly the measurements stamped with the time of step k, in order, each once, and does not read outside the list.", "quantifier": "all lists of measurements and step times", "why_tests_cant": "all interleavings of times; the failure is an out-of-bounds read or silence", "anchors": ["include/RBPHDSLAM_2D.hpp:742-797", "include/RBPHDSLAM_2D.hpp:224-325"]}
{"id": "C116", "title": "The exported measurement is the measurement", "statement": "measurement.dat holds range and bearing of every measurement.", "quantifier": "all measurements of both two-dimensional sensors", "why_tests_cant": "real trigonometry over all measurements", "anchors": ["include/RBPHDSLAM_2D.hpp:606-618"]}
{"id": "C117", "title": "The ground truth trajectory is consistent", "statement": "generateTrajectory ends with one pose and displacement per step at multiples of the step time, each pose obtained from the previous one by its displacement, standing still for 50 steps and then moving within the configured limits; dead reckoning follows the odometry in the same way.", "quantifier": "all settings, streams of draws, motion models", "why_tests_cant": "infinite streams of draws; termination", "anchors": ["include/RBPHDSLAM_2D.hpp:331-387", "include/RBPHDSLAM_2D.hpp:390-424"]}
{"id": "C118", "title": "The analysis evaluates the map that was logged", "statement": "run logs the map of the heaviest particle and analysis2dSim evaluates the map of that particle.", "quantifier": "all weights", "why_tests_cant": "ties and rounding of printed weights", "anchors": ["include/RBPHDSLAM_2D.hpp:799-835", "src/analysis2dSim.cpp:156-201"]}
{"id": "C119", "title": "The analysis attributes rows to their steps", "statement": "readNextStepData returns for each ground-truth time exactly the particles and landmarks logged for it.", "quantifier": "all logs", "why_tests_cant": "all numbers of steps, particles and landmarks; end-of-file and stale-row behaviour", "anchors": ["src/analysis2dSim.cpp:149-206", "include/RBPHDSLAM_2D.hpp:735-740"]}
{"id": "C120", "title": "Reported pose errors are errors", "statement": "The reported heading error is the difference of the headings in [-pi, pi], the average error lies between the errors of the particles.", "quantifier": "all headings, particle sets", "why_tests_cant": "real arithmetic over all headings and weights", "anchors": ["src/analysis2dSim.cpp:253-318"]}
{"id": "C121", "title": "The analysis counts the observed landmarks", "statement": "getCardinalityEst returns the number of ground-truth landmarks observed up to the current time.", "quantifier": "all visibility histories and times", "why_tests_cant": "needs landmarks that are never in range", "anchors": ["src/analysis2dSim.cpp:212-225", "include/RBPHDSLAM_2D.hpp:500-536"]}
{"id": "C122", "title": "Tree measurements and trees convert into each other", "statement": "measure of MeasurementModel_VictoriaPark returns range, bearing (from the right-hand side of the vehicle) and diameter of the tree for every pose and tree; inverseMeasure of it returns the tree, and measuring the tree of a measurement with positive range and bearing inside (-pi, pi) returns the measurement.", "quantifier": "all poses, trees and measurements", "why_tests_cant": "continuous pose and position space, all quadrants and headings of any number of turns", "anchors": ["src/MeasurementModel_VictoriaPark.cpp:75-151"]}
{"id": "C123", "title": "Expected tree measurements carry the uncertainty of tree and pose", "statement": "The covariance returned by measure is J S J^T plus the sensor noise over all three components, with the pose uncertainty included when given, and both requested Jacobians are filled in.", "quantifier": "all poses, trees, covariances", "why_tests_cant": "the error is a wrong number, not a failure", "anchors": ["src/MeasurementModel_VictoriaPark.cpp:75-151"]}
{"id": "C124", "title": "Trees outside the limits are not expected", "statement": "A tree whose range or bearing is outside the configured limits has probability of detection zero and measure reports it as not measurable.", "quantifier": "all poses, trees and limits", "why_tests_cant": "needs trees near the limits", "anchors": ["src/MeasurementModel_VictoriaPark.cpp:104-265"]}
{"id": "C125", "title": "The probability of detection of a tree is the table entry for the beams it shows", "statement": "The probability of a tree position is the entry of the table for the number of beams of the scan that fall on the tree and are not blocked in front of it.", "quantifier": "all scans, trees and tables", "why_tests_cant": "depends on all 720 ranges and a continuum of bearings and diameters", "anchors": ["src/MeasurementModel_VictoriaPark.cpp:202-265"]}
{"id": "C126", "title": "Half-turn scans are read within their bounds", "statement": "With the 361-beam scans that the drivers deliver, the probability of detection of any tree within the limits is computed from beams of the scan.", "quantifier": "all trees within the limits, all scans of 361 beams", "why_tests_cant": "an out-of-bounds read need not fail", "anchors": ["src/MeasurementModel_VictoriaPark.cpp:202-265", "src/rbphdslam_VictoriaPark.cpp:274-294"]}
{"id": "C127", "title": "The probability of detection used by the filters covers the neighbourhood of the tree", "statement": "probabilityOfDetection returns the largest probability over positions beside the tree within its uncertainty, flags mixed neighbourhoods as close to the limits, and returns for every landmark estimate.", "quantifier": "all poses, trees, covariances", "why_tests_cant": "termination and a maximum over a data-dependent set of positions", "anchors": ["src/MeasurementModel_VictoriaPark.cpp:153-200"]}
{"id": "C128", "title": "Clutter intensity times the area seen is the expected clutter", "statement": "clutterIntensity times the area of the region swept by the scan is clutterIntensityIntegral, for every scan.", "quantifier": "all scans", "why_tests_cant": "all range profiles", "anchors": ["src/MeasurementModel_VictoriaPark.cpp:267-293"]}
{"id": "C129", "title": "Descriptor distance is the Hamming metric", "statement": "ORBDescriptor::distance is the number of differing bits: zero exactly for equal descriptors, symmetric, at most 256, and satisfies the triangle inequality.", "quantifier": "all pairs and triples of 256-bit descriptors", "why_tests_cant": "2^256 descriptors", "anchors": ["include/ORB.hpp:78-80"]}
{"id": "C130", "title": "Descriptor likelihoods are ordered by distance and add up to one", "statement": "likelihood is symmetric, positive and strictly decreasing in the distance, and likelihood over all descriptors as well as falseAlarmLikelihood over all descriptors add up to one.", "quantifier": "all descriptors", "why_tests_cant": "a sum over 2^256 descriptors", "anchors": ["include/ORB.hpp:69-76"]}
{"id": "C131", "title": "Descriptor likelihood against false alarms is the ratio of a bit-flipping channel to uniform noise", "statement": "likelihood / falseAlarmLikelihood is the probability ratio between a channel flipping each bit with probability 1/2.1 and a uniformly random descriptor, so that weights of measurements over landmarks and clutter are those of the two normalised distributions.", "quantifier": "all descriptors, any number of landmarks", "why_tests_cant": "all pairs of descriptors", "anchors": ["include/ORB.hpp:69-76"]}
{"id": "C132", "title": "Random and sampled descriptors follow the distributions of the likelihoods", "statement": "random can return every descriptor with independent fair bits, and sample flips each bit independently with the probability assumed by likelihood.", "quantifier": "all draws of lrand48", "why_tests_cant": "a distribution over 2^256 values", "anchors": ["include/ORB.hpp:49-68"]}
{"id": "C133", "title": "Measurement models with descriptors are consistent", "statement": "measure and inverseMeasure hand the descriptor on, landmarks and measurements evaluate the same likelihood and always write the squared distance, and clutterIntensity over all measurements with all descriptors adds up to clutterIntensityIntegral.", "quantifier": "all base models, descriptors", "why_tests_cant": "sum over all descriptors", "anchors": ["include/MeasurementModelWithDescriptor.hpp:58-138", "include/LandmarkWithDescriptor.hpp:47-57", "include/MeasurementWithDescriptor.hpp:48-54"]}
{"id": "C134", "title": "Composition of frames is composition of motions", "statement": "The product of two frames places every point as the two frames do one after the other, is associative, has the sum of the headings in (-pi, pi], the later time and the base frame of the left factor.", "quantifier": "all frames, points", "why_tests_cant": "continuous, all headings of any number of turns", "anchors": ["src/Frame.cpp:17-41"]}
{"id": "C135", "title": "Mapping to the base frame keeps the geometry", "statement": "getRelToBaseFrame keeps distances, reaches every point, and turns the covariance so that the variance along every direction, trace, determinant and symmetry are kept; the overloads agree and keep the time.", "quantifier": "all frames, points, covariances", "why_tests_cant": "continuous", "anchors": ["src/Frame.cpp:56-68", "src/Frame.cpp:85-108"]}
{"id": "C136", "title": "Covariances are optional when mapping to the base frame", "statement": "Either covariance pointer of getRelToBaseFrame may be NULL; then no covariance is mapped.", "quantifier": "all combinations of pointers", "why_tests_cant": "undefined behaviour need not fail", "anchors": ["src/Frame.cpp:70-83"]}
{"id": "C137", "title": "Composition of frames carries the uncertainty of both", "statement": "The covariance of a product of frames accounts for the covariances of both factors.", "quantifier": "all frames", "why_tests_cant": "a wrong number, not a failure", "anchors": ["src/Frame.cpp:17-41"]}
{"id": "C138", "title": "Samples are reproducible per thread", "statement": "With the same seed and number of threads, after initializeGaussianGenerators every thread draws the same sequence of samples whatever the others do, also when initialised again, and every thread can draw.", "quantifier": "all seeds, interleavings of draws, numbers of threads", "why_tests_cant": "all interleavings", "anchors": ["src/GaussianGenerators.cpp:42-56", "include/RandomVec.hpp:597-645"]}
{"id": "C139", "title": "Replay predicts over the elapsed time", "statement": "In the Victoria Park drivers every input or scan message leads to exactly one prediction, over the time since the previous such message; the predictions add up to the time of the last one.", "quantifier": "all message lists with well-formed times, inputs, scans, measurements", "why_tests_cant": "all interleavings of message kinds", "anchors": ["src/rbphdslam_VictoriaPark.cpp:455-628", "src/fastslam_VictoriaPark.cpp:455-628"]}
{"id": "C140", "title": "Replay predicts with the input in force", "statement": "The prediction to a message uses the last input read before that message (zero before the first), with the steering angle scaled once, and adds input noise exactly if some input so far had a speed.", "quantifier": "all message lists and inputs", "why_tests_cant": "stale or double-scaled inputs still give a trajectory", "anchors": ["src/rbphdslam_VictoriaPark.cpp:503-528"]}
{"id": "C141", "title": "Birth Gaussians are added once per scan", "statement": "Birth Gaussians are added in the first prediction and in the first prediction after each scan, in no other.", "quantifier": "all message lists", "why_tests_cant": "all interleavings of message kinds", "anchors": ["src/rbphdslam_VictoriaPark.cpp:503-528"]}
{"id": "C142", "title": "Each scan is updated with its own measurements", "statement": "The update for a scan message gets exactly the measurements with its time (and the artificial clutter), and the scan of that time.", "quantifier": "all message lists and measurement lists", "why_tests_cant": "one stray measurement among thousands", "anchors": ["src/rbphdslam_VictoriaPark.cpp:529-584"]}
{"id": "C143", "title": "The scan and message files are read as written", "statement": "Reading gives the scans and messages in the file and nothing else.", "quantifier": "all files of numbers", "why_tests_cant": "truncated files are not in the test data", "anchors": ["src/rbphdslam_VictoriaPark.cpp:207-294"]}
{"id": "C144", "title": "Artificial clutter covers the field of view", "statement": "False alarms added to a scan are as many as a draw of the Poisson distribution says, and lie within the range and bearing limits, anywhere there.", "quantifier": "all limits, means and random streams", "why_tests_cant": "random; wrong spread does not fail", "anchors": ["src/rbphdslam_VictoriaPark.cpp:441-453", "src/rbphdslam_VictoriaPark.cpp:555-580"]}
{"id": "C145", "title": "Configured numbers take effect", "statement": "The threshold for resampling and the added clutter are the numbers written in the configuration.", "quantifier": "all decimal numbers", "why_tests_cant": "the default is silently used", "anchors": ["src/rbphdslam_VictoriaPark.cpp:129-163", "include/ParticleFilter.hpp:395-440"]}
{"id": "C146", "title": "FastSLAM logs existence probabilities", "statement": "The weight logged for a landmark is the probability whose log-odds is its weight.", "quantifier": "all weights", "why_tests_cant": "all reals", "anchors": ["src/fastslam_VictoriaPark.cpp:609"]}
{"id": "C147", "title": "Logged trajectories are the paths of the particles", "statement": "Following the previous poses of a particle gives the pose it and its ancestors had after each prediction.", "quantifier": "all sequences of predictions and resamplings, all particles", "why_tests_cant": "all resampling histories", "anchors": ["include/ParticleFilter.hpp:330-350", "include/Trajectory.hpp:56", "include/RBLMBFilter.hpp:285", "include/RBCBMeMBerFilter.hpp:289"]}
{"id": "C148", "title": "Dead reckoning integrates the inputs", "statement": "The dead reckoning file has a row for each input message, moved from the row before by the input in force over the elapsed time.", "quantifier": "all message lists and inputs", "why_tests_cant": "all message lists", "anchors": ["src/rbphdslam_VictoriaPark.cpp:326-357"]}
{"id": "C149", "title": "Angles are normalised", "statement": "NormalizeAngle returns the one angle in [-pi, pi) that differs from its argument by whole turns.", "quantifier": "all reals", "why_tests_cant": "all reals", "anchors": ["src/rfsceresslam2dSim.cpp:57-63"]}
{"id": "C150", "title": "Least squares vanish exactly at consistent solutions", "statement": "The objective of the planar optimiser is never negative, and zero exactly if every pose is the previous one moved by its odometry and every associated landmark is where its measurement says; the motion model and the inverse sensor model give such solutions.", "quantifier": "all trajectories, maps, odometry and scans with positive variances and ranges", "why_tests_cant": "all solutions", "anchors": ["src/rfsceresslam2dSim.cpp:57-146", "src/rfsceresslam2dSim.cpp:735-770"]}
{"id": "C151", "title": "Objectives are weighted sums of squares", "statement": "The objectives built for the solver are half the sum, over odometry and associated measurements, of squared errors over variances, with poses and landmarks taken from the right places of the parameter array.", "quantifier": "all trajectories, maps, odometry and scans", "why_tests_cant": "all sizes and associations", "anchors": ["src/rfsceresslam1dSim.cpp:61-67", "src/rfsceresslam1dSim.cpp:626-653", "src/rfsceresslam2dSim.cpp:735-770"]}
{"id": "C152", "title": "The least squares solution is the most likely one", "statement": "Of two solutions the one of lower cost has the higher density under the noise the optimiser is given.", "quantifier": "all solutions, variances, inflation factors and time steps", "why_tests_cant": "compares a cost and a density over all solutions", "anchors": ["src/rfsceresslam1dSim.cpp:460-463", "src/rfsceresslam1dSim.cpp:528-532", "src/rfsceresslam1dSim.cpp:626-653"]}
{"id": "C153", "title": "Parameter arrays are read inside their bounds", "statement": "The arrays of the true and of the initial parameters are as long as what the driver and the solver read from them.", "quantifier": "all true and initial maps", "why_tests_cant": "undefined behaviour that usually goes unnoticed", "anchors": ["src/rfsceresslam1dSim.cpp:536-632", "src/rfsceresslam2dSim.cpp:642-694", "include/RFSCeresSLAM.hpp:431-495"]}
{"id": "C154", "title": "Dead reckoning adds up the odometry", "statement": "The dead reckoning trajectory is the initial pose moved by the odometry values one after the other.", "quantifier": "all odometry sequences", "why_tests_cant": "reads past the end of a vector, inside its capacity", "anchors": ["src/rfsceresslam1dSim.cpp:212-249", "src/rfsceresslam2dSim.cpp:308-347", "src/rfspsoslam1dSim.cpp:192-228", "src/rfspsoslam2dSim.cpp:198-240", "src/rfspsoorbslam1dSim.cpp:195-231"]}
{"id": "C155", "title": "Simulation files hold the data", "statement": "Each exported file has a row for each pose, landmark, displacement, measurement and dead reckoning pose, in order.", "quantifier": "all simulation data", "why_tests_cant": "varargs mismatch prints garbage", "anchors": ["src/rfsceresslam1dSim.cpp:386-441", "src/rfspsoslam1dSim.cpp:363-418", "src/rfspsoorbslam1dSim.cpp:369-428"]}
{"id": "C156", "title": "Landmarks are spread along the line", "statement": "As many landmarks as configured are made, evenly spread over the time steps.", "quantifier": "all numbers of steps and landmarks", "why_tests_cant": "all numbers", "anchors": ["src/rfsceresslam1dSim.cpp:252-286", "src/rfspsoslam1dSim.cpp:231-263", "src/rfspsoorbslam1dSim.cpp:234-268"]}
{"id": "C157", "title": "Generated measurements reach the optimiser", "statement": "Scan k of the optimiser holds exactly the measurements simulated at step k, with their associations, the false alarms last; the first observation times are the first times landmarks were measured.", "quantifier": "all poses, landmarks, noise, detection draws and false alarms", "why_tests_cant": "all random draws", "anchors": ["src/rfsceresslam1dSim.cpp:312-368", "src/rfspsoslam1dSim.cpp:289-346", "include/RFSCeresSLAM.hpp:280-340"]}
{"id": "C158", "title": "False alarms of the line cover the field of view", "statement": "False alarms lie within the range limits, on both sides of the robot like measurements.", "quantifier": "all streams of random numbers", "why_tests_cant": "random; wrong spread does not fail", "anchors": ["src/rfsceresslam1dSim.cpp:345-361", "src/rfspsoslam1dSim.cpp:322-338"]}
{"id": "C159", "title": "The swarm runs for the configured iterations", "statement": "Particles are moved maxiter times.", "quantifier": "all configured numbers", "why_tests_cant": "off by one goes unnoticed", "anchors": ["src/rfspsoslam1dSim.cpp:513-610", "src/rfspsoslam2dSim.cpp:530-628", "src/rfspsoorbslam1dSim.cpp:523-622"]}
{"id": "C160", "title": "Logged likelihoods belong to the logged solutions", "statement": "Each row of the particle log has the likelihood of the trajectory and map in that row.", "quantifier": "all likelihoods, solver answers and moves", "why_tests_cant": "values are plausible", "anchors": ["src/rfspsoslam1dSim.cpp:513-610", "src/rfspsoorbslam1dSim.cpp:523-622"]}
{"id": "C161", "title": "Inputs explain the optimised trajectory", "statement": "After the solver has optimised a particle, moving its poses by its inputs gives its trajectory.", "quantifier": "all answers of the solver", "why_tests_cant": "all trajectories", "anchors": ["include/RFSPSOSLAM.hpp:482-488"]}
{"id": "C162", "title": "The filter assumes the simulated noise", "statement": "In space the process noise of the filter is the simulated one times the inflation factor.", "quantifier": "all variances", "why_tests_cant": "wrong order of equal numbers is not visible", "anchors": ["src/rbphdslam6dSim.cpp:275-297", "src/rbphdslam6dSim.cpp:529-539"]}
{"id": "C163", "title": "The first pose stays", "statement": "Moves of the swarm never change the first pose of a trajectory.", "quantifier": "all sequences of moves, random factors, bests and neighbours", "why_tests_cant": "all runs", "anchors": ["include/RFSPSOSLAM.hpp:402-418", "include/RFSPSOSLAM.hpp:640-662"]}
{"id": "C164", "title": "Amplitudes enter the likelihood", "statement": "The likelihood of a measurement with amplitude is the Gaussian likelihood of range and bearing times the normal density of its amplitude, whatever object (constructed, copied, assigned) computes it.", "quantifier": "all programs constructing, copying, assigning measurements and setting amplitudes", "why_tests_cant": "the bug is reading memory that was never written; whatever a test finds there may be right", "anchors": ["include/Measurement_amplitude.hpp:11-91"]}
{"id": "C165", "title": "Stronger returns speak for landmarks", "statement": "Of two measurements at the same place the one with the larger amplitude has the larger ratio of landmark likelihood to clutter intensity.", "quantifier": "all pairs of amplitudes, clutter intensities and places", "why_tests_cant": "all pairs of amplitudes; unbounded reals", "anchors": ["include/Measurement_amplitude.hpp:78-82", "src/MeasurementModel_RngBrg_amplitude.cpp:169-173"]}
{"id": "C166", "title": "Simulated amplitudes follow the assumed distributions", "statement": "Amplitudes of simulated detections and false alarms follow the distributions used in the likelihood and the clutter intensity.", "quantifier": "all streams of random numbers, all amplitudes", "why_tests_cant": "distributions; a property of all streams", "anchors": ["src/rbphdslam2dSim_amplitude.cpp:334-338", "src/rbphdslam2dSim_amplitude.cpp:366", "src/MeasurementModel_RngBrg_amplitude.cpp:169-173", "include/Measurement_amplitude.hpp:78-82"]}
{"id": "C167", "title": "The measurement file holds the measurements", "statement": "measurement.dat determines the measurements of a simulation with amplitudes.", "quantifier": "all pairs of simulations", "why_tests_cant": "injectivity over all simulations", "anchors": ["src/rbphdslam2dSim_amplitude.cpp:425-434"]}
{"id": "C168", "title": "A sampled measurement is one the sensor can return", "statement": "MeasurementModel::sample returns true exactly for landmarks in range, with a range within the limits and a bearing within half a turn, and a covariance equal to the noise of the model.", "quantifier": "all poses, landmarks, covariances, flags and noise", "why_tests_cant": "all noise values", "anchors": ["include/MeasurementModel.hpp:129-159", "include/RandomVec.hpp:598-644"]}
{"id": "C169", "title": "A landmark in range is detected with the configured probability", "statement": "The simulators store a measurement of a landmark in range exactly if the draw is at most Pd, with bearing within half a turn.", "quantifier": "all poses, landmarks, noise and draws", "why_tests_cant": "all noise values and draws", "anchors": ["src/rbphdslam2dSim_amplitude.cpp:325-341", "include/RBPHDSLAM_2D.hpp:517-531"]}
{"id": "C170", "title": "The map accessors enumerate the map of a particle", "statement": "For a particle index in range, getGMSize returns the number of landmarks in that particle's map and the calls getLandmark(i, m, ...) for m from 0 to getGMSize(i)-1 deliver every landmark of the map with its weight, each once; indices out of range are refused with -1 or false, and getTrack delivers a copy of the track and changes none of the filter's tracks.", "quantifier": "all particle sets, maps, heaps and indices, including maps as merge and prune leave them", "why_tests_cant": "needs maps with empty slots in every position and every index; tests read maps straight after addGaussian", "anchors": ["include/RBPHDFilter.hpp:1156-1182", "include/FastSLAM.hpp:769-797", "include/RBLMBFilter.hpp:381-416", "include/RBPHDFilter.hpp:498-517"]}
{"id": "C171", "title": "checkMapIntegrity returns false exactly for corrupted maps", "statement": "checkMapIntegrity returns true if and only if every landmark estimate of every particle has a mean, covariance and weight free of NaN and a positive definite covariance.", "quantifier": "all particle sets, maps with empty slots, means, covariances and weights", "why_tests_cant": "ranges over all covariance matrices and all positions of empty slots; the function is never called by the tests", "anchors": ["include/RBPHDFilter.hpp:1091-1154"]}
{"id": "C172", "title": "Converting logs keeps every row", "statement": "If convertLogFiles returns 0, every row of the old particle and landmark files appears in the new ones, in order, with the time and particle it belongs to.", "quantifier": "all contents of the two log files", "why_tests_cant": "ranges over all files, including ones whose announced sizes are wrong", "anchors": ["src/convertLogFiles.cpp:71-113"]}
{"id": "C173", "title": "The log converter never destroys the data", "statement": "Whatever its exit status and however often it is run, the data of the original files remain in the directory.", "quantifier": "all directories, all file contents, any number of runs", "why_tests_cant": "needs runs on already converted directories and all failure positions", "anchors": ["src/convertLogFiles.cpp:53-70"]}
{"id": "C174", "title": "Position and rotation of a pose are independent parts", "statement": "Setting the position makes it the position and leaves the rotation, the remaining coordinates and the time unchanged, and the same with the roles exchanged; the two commute, and writing back what was read changes nothing.", "quantifier": "all poses, dimensions and vectors", "why_tests_cant": "all dimensions of the template", "anchors": ["include/Pose.hpp:116-189"]}
{"id": "C175", "title": "JCBB tests hypotheses by the joint Mahalanobis distance", "statement": "For every hypothesis the distance JCBB compares with the chi-square quantile is v^T S^-1 v, where v stacks the innovations of all its associations and S is their joint covariance under the given robot and landmark covariances and measurement noise.", "quantifier": "all dimensions, Jacobians, covariances (block diagonal or dense), innovations and hypotheses of any length", "why_tests_cant": "The distance is built up incrementally by a block inverse along a search path; a test sees a few hypotheses with a few covariances, in which a wrong off-diagonal block merely shifts the distance.", "anchors": ["include/JCBB.hpp:378-484"]}
{"id": "C176", "title": "The measurement likelihood of RFSCeresSLAM is the sum over all association hypotheses", "statement": "rfsMeasurementLikelihood(k), evaluated for the batch estimate of pose k and a map, returns the sum of the weights of all association hypotheses of the scan (with the detection probabilities of the sensor model, the clutter intensities and the known origins of measurements) divided by the clutter integral, for every map and scan.", "quantifier": "all likelihoods, detection probabilities, clutter intensities, origins, thresholds, numbers of landmarks and measurements", "why_tests_cant": "The sum is over exponentially many hypotheses and the function splits the table into components with two algorithms per component; a test can compare a few tiny scans only, and with the usual detection probability 0.9 the constant in the code is invisible.", "anchors": ["include/RFSCeresSLAM.hpp:559-866"]}
{"id": "C177", "title": "The gradients returned with the measurement likelihood of RFSCeresSLAM are those of its logarithm", "statement": "rfsMeasurementLikelihood(k) returns with the likelihood the gradients of its logarithm with respect to the pose and the landmarks: the means, over all association hypotheses with their weights, of the sums of the derivatives of the log likelihoods of the associated measurements.", "quantifier": "all likelihoods, derivatives, clutter intensities, origins, numbers of landmarks and measurements", "why_tests_cant": "Means over exponentially many hypotheses, accumulated component by component and normalised per component; finite differences on a few scans neither cover the components nor tell a wrong factor from a rounding error.", "anchors": ["include/RFSCeresSLAM.hpp:559-866"]}
{"id": "C178", "title": "The filters run on an ISAM data set use the noise of the data set", "statement": "RBLMBSLAM_2D and RBPHDSLAM_2D compute from the square-root information of the lines of an ISAM file the covariances of motions and measurements; the filter of the City Trees programs then runs with the process and measurement noise of the data set (times the inflation factors).", "quantifier": "For all data set files, ground truth files and settings", "why_tests_cant": "A test uses one file whose information happens to agree with the settings; that the settings are read again after the file, and that only the last line of each kind counts, does not show.", "anchors": ["include/RBLMBSLAM_2D.hpp:160-179", "include/RBLMBSLAM_2D.hpp:224-324", "include/RBLMBSLAM_2D.hpp:646-668", "src/rblmbslamCityTrees10000.cpp:62-83"]}
{"id": "C179", "title": "Holding particles at the true pose in the first steps uses the true pose of the step and nothing else", "statement": "run() may put the particles of the first steps at a known pose: all particles are then at the true pose of the time of the step, their maps and weights are kept, no pose outside the ground truth is read, and later the estimate does not depend on the ground truth.", "quantifier": "For all ground truths, odometry, measurements, particle numbers and filters", "why_tests_cant": "The step that reads past the ground truth needs a short run; an offset of one step and particles that are not held change estimates a little, which no assertion notices.", "anchors": ["include/RBLMBSLAM_2D.hpp:746-812", "include/RBPHDSLAM_2D.hpp:793-796", "src/fastslam2dSim.cpp:580-583", "include/RBLMBFilter.hpp:374-378"]}
{"id": "C180", "title": "The ground truth landmarks of an ISAM file are where its sightings put them, each once", "statement": "readISAMGroundTruth gives the poses that follow from the motions of the file and one landmark for each landmark of the file, placed from the pose with the number in the line, in whatever order the lines come.", "quantifier": "For all ground truth files whose lines are complete", "why_tests_cant": "Order of lines, repeated sightings and constraints between distant poses depend on the file; a test has the files of one data set.", "anchors": ["include/RBLMBSLAM_2D.hpp:187-205", "include/RBLMBSLAM_2D.hpp:224-324"]}
{"id": "C181", "title": "Simulated measurements have the configured measurement noise", "statement": "generateMeasurements of the 2-D classes adds to each measurement of a landmark noise with the covariance diag(varzr, varzb) or diag(varzx, varzy) of the settings.", "quantifier": "For all configured variances and random numbers", "why_tests_cant": "Noise is random: a test cannot assert values, and measurements without noise pass every tolerance.", "anchors": ["include/RBLMBSLAM_2D.hpp:468-477", "include/RBPHDSLAM_2D.hpp:471-479", "include/MeasurementModel.hpp:69-88"]}
{"id": "C182", "title": "ospaErrorFromFile reads every point of its files", "statement": "Each pair of numbers of an input file of ospaErrorFromFile becomes one point of the set, however the file ends.", "quantifier": "For all lists of points, with and without anything after the last number", "why_tests_cant": "Whether the last point is read depends on the last byte of the file.", "anchors": ["src/examples/ospaErrorFromFile.cpp:60-95"]}
{"id": "C183", "title": "After a FastSLAM resampling every particle continues with the landmark candidates of the particle it copies", "statement": "When update resamples, the candidate list of every slot afterwards is the list the map update had left for the particle whose pose, trajectory and map that slot now carries, in every resampling of a run.", "quantifier": "all numbers of particles, configurations, sequences of predict, update and threshold calls, map updates, weights and random numbers", "why_tests_cant": "Parent identifiers and slots agree in the first resampling and may differ from the second on; a test would have to look at candidate lists, which are private, after two resamplings with unequal particles.", "anchors": ["include/FastSLAM.hpp:738-766", "include/ParticleFilter.hpp:407-500"]}
{"id": "C184", "title": "FastSLAM resamples when, and only when, its configuration says so", "statement": "An update with measurements resamples exactly when there are more than nParticlesMax_ particles, or at least minUpdatesBeforeResample_ updates and minMeasurementsBeforeResample_ measurements have been seen since the last resampling and the effective number of particles is not above both thresholds; updates without measurements count as updates and change no particle.", "quantifier": "all configurations, runs, numbers of measurements, weights and thresholds", "why_tests_cant": "The decision depends on the whole history since the last resampling and on a conversion from int to unsigned; tests check a few histories.", "anchors": ["include/FastSLAM.hpp:389-407", "include/FastSLAM.hpp:738-755"]}
{"id": "C185", "title": "The number of FastSLAM particles stays between the initial number and the configured maximum", "statement": "Whatever data association hypotheses split particles, after every call there are at least as many particles as at construction and at most nParticlesMax_ (or the initial number if that is larger).", "quantifier": "all runs, splits, configurations and random numbers", "why_tests_cant": "It is an invariant over unbounded runs with splitting and merging of the particle set.", "anchors": ["include/FastSLAM.hpp:738-748", "include/FastSLAM.hpp:556-571", "include/ParticleFilter.hpp:425-498"]}
{"id": "C186", "title": "The resampling step of FastSLAM is always defined", "statement": "With the effective particle threshold set and weights not all zero, update never reads or writes outside the particle set or the candidate lists after the map updates, in any state of any run.", "quantifier": "all runs, splits, weights and random numbers", "why_tests_cant": "Parent identifiers are used as indices and identifiers survive several resamplings; whether they stay inside the lists needs an invariant over the run.", "anchors": ["include/FastSLAM.hpp:394-398", "include/FastSLAM.hpp:757-764"]}
{"id": "C187", "title": "FastSLAM trajectories contain exactly the poses the particle went through", "statement": "Every particle's trajectory consists of the initial pose and one pose per predict, each obtained from the one before by the motion of that call, whatever splits and resamplings happened in between; predict never dereferences a missing map.", "quantifier": "all runs, motions, map updates that keep pose and trajectory, and random numbers", "why_tests_cant": "It is an invariant over unbounded runs through copying of particles in splits and resamplings.", "anchors": ["include/FastSLAM.hpp:366-387", "include/ParticleFilter.hpp:328-349", "include/Particle.hpp:217-223"]}
{"id": "C188", "title": "A particle of the PHD, LMB and CB-MeMBer filters is the result of its own history", "statement": "After any sequence of predict, update and threshold calls on a new RBPHDFilter, RBLMBFilter or RBCBMeMBerFilter with n particles there are n particles, and pose, trajectory and map of each are those obtained by doing, for a single particle, what each call prescribes for the slot the particle was in; a particle changes its slot only in an update that resampled.", "quantifier": "all numbers of particles, all sequences of calls, all motions, map updates, births and draws, all weights including NaN", "why_tests_cant": "The lineage of particles through any number of resamplings is a property of whole runs over all weight patterns; a test sees single runs.", "anchors": ["include/RBPHDFilter.hpp:417-543", "include/RBLMBFilter.hpp:276-300", "include/RBLMBFilter.hpp:428-512", "include/RBCBMeMBerFilter.hpp:280-303", "include/RBCBMeMBerFilter.hpp:428-511", "include/ParticleFilter.hpp:407-500"]}
{"id": "C189", "title": "Particle weights are the products of the likelihoods since the last resampling", "statement": "If each update with measurements multiplies the weight of a particle by a positive factor, then after any sequence of calls the weights of the particles are proportional to the products of the factors of the updates since the last resampling, taken along the history of the particle.", "quantifier": "all runs as in C188, all positive factors depending on slot, pose and map", "why_tests_cant": "Normalisations and resets after any number of updates have to cancel exactly in every run; tests compare rounded numbers of single runs.", "anchors": ["include/RBPHDFilter.hpp:446-543", "include/RBLMBFilter.hpp:428-512", "include/RBCBMeMBerFilter.hpp:428-511", "include/ParticleFilter.hpp:360-371"]}
{"id": "C190", "title": "The PHD, LMB and CB-MeMBer filters resample when, and only when, their configuration says so", "statement": "An update with measurements resamples if and only if the updates since the last resampling reach minUpdatesBeforeResample_, for the PHD filter the measurements since then reach minMeasurementsBeforeResample_, and the effective number of particles is not above the threshold.", "quantifier": "all runs as in C188, all values of the settings", "why_tests_cant": "Counters run over unbounded histories and the settings over all of int.", "anchors": ["include/RBPHDFilter.hpp:449-454", "include/RBPHDFilter.hpp:526-541", "include/RBLMBFilter.hpp:497-510", "include/RBCBMeMBerFilter.hpp:496-509"]}
{"id": "C191", "title": "Runs of the PHD, LMB and CB-MeMBer filters are defined", "statement": "No sequence of predict, update and threshold calls on a new filter with at least one particle reads outside the particle set or a value that was never written, whatever the weights are.", "quantifier": "all runs as in C188 with draws in [0,1) and weights that are non-negative or NaN", "why_tests_cant": "A read of an uninitialised threshold usually goes unnoticed in a test; degenerate weights appear after long runs only.", "anchors": ["include/RBPHDFilter.hpp:349-398", "include/RBPHDFilter.hpp:526-541", "include/ParticleFilter.hpp:228-244", "include/ParticleFilter.hpp:407-500"]}
{"id": "C192", "title": "Runs of the LMB filter are defined and keep valid maps", "statement": "From a new LMB filter, any sequence of predict, update and threshold calls divides by no zero and reads nothing out of range, and at every point all particles have positive weight and all tracks an existence probability in [0,1] and Gaussians of non-negative weight and sum at most one.", "quantifier": "all sensors (probability of detection, likelihoods, clutter), configurations, numbers of particles, measurements, draws in [0,1), motions and call sequences", "why_tests_cant": "each update feeds the next: births of one call become the tracks of the following ones, pruned mixtures become inputs of association; a test sees some histories", "anchors": ["include/RBLMBFilter.hpp:276-332", "include/RBLMBFilter.hpp:428-512", "include/RBLMBFilter.hpp:516-884", "include/GMBernoulliComponent.hpp:266-291"]}
{"id": "C193", "title": "Every track of the LMB filter keeps a spatial density", "statement": "At every point of a run of the LMB filter the weights of the Gaussians of each track of each particle sum to one, so that every track that exists has a position.", "quantifier": "all runs as in C192 and all pruning and merging thresholds, in particular the defaults", "why_tests_cant": "whether pruning can empty a mixture depends on how the weight was spread by earlier updates; the effect (a track that never changes again) only shows over long runs", "anchors": ["include/RBLMBFilter.hpp:466-486", "include/RBLMBFilter.hpp:354-362", "include/GMBernoulliComponent.hpp:266-291", "include/GaussianMixture.hpp:530-593"]}
{"id": "C194", "title": "Every particle of the LMB filter has a life of its own, and runs refine the generic filter", "statement": "After any sequence of calls each particle of the labelled multi-Bernoulli filter is explained by a life of its own: an update with measurements replaces its tracks by what the map update makes of that particle's pose and tracks and multiplies its weight by that update's likelihood factor; predict adds the births waiting in its slot, placed from the particle's own pose before the motion, and then moves the pose and the tracks, recording the trajectory; a resampling puts a copy with weight one into another slot, where the births of the previous occupant wait. Weights are those of the lives up to one common positive factor. Every run is also a run of the filter with maps of any kind (C188-C191).", "quantifier": "all sensors with detection probability below one and positive clutter, configurations, particle numbers, thresholds and call sequences without an update without measurements while births are waiting (C93); for the refinement: all map updates and all call sequences", "why_tests_cant": "Particles interact through normalisation, resampling and shared birth slots; tests look at few particles over few steps and never reconstruct the history of a particle after resampling.", "anchors": ["include/RBLMBFilter.hpp:276-332", "include/RBLMBFilter.hpp:428-512", "include/ParticleFilter.hpp:359-457"]}
{"id": "C195", "title": "Runs of the PHD filter are defined, keep non-negative maps and never kill a particle", "statement": "From a new PHD filter, any sequence of predict, update and threshold calls divides by no zero, reads nothing out of range and uses no invalid iterator, and at every point all particles have a positive weight and maps whose Gaussians have non-negative weights. Every run is a run of the generic Rao-Blackwellised filter with the maps and weights of the PHD update.", "quantifier": "all sensors (probability of detection, corrections, likelihoods, clutter), configurations, merging functions, measurement sets, motions, landmark models, numbers of particles, random numbers and lengths of runs", "why_tests_cant": "whether a weight vanishes, a candidate list is left through its end or a measurement number is stale depends on the whole history of a run", "anchors": ["include/RBPHDFilter.hpp:417-543", "include/RBPHDFilter.hpp:545-727", "include/RBPHDFilter.hpp:731-822", "include/RBPHDFilter.hpp:1004-1088"]}
{"id": "C196", "title": "The expected number of landmarks of the PHD filter is bounded by the measurements", "statement": "At every point of a run the sum of the weights of the map of any particle is at most the number of measurements received so far times one plus the birth weight: landmarks are not made from nothing, not by updates, merging, births or resampling.", "quantifier": "all runs as in C195", "why_tests_cant": "a bound over runs of any length with any measurements and resamplings; one run shows nothing about the others", "anchors": ["include/RBPHDFilter.hpp:545-727", "include/RBPHDFilter.hpp:1004-1088", "include/RBPHDFilter.hpp:417-543"]}
{"id": "C197", "title": "The likelihood of a measurement set is positive whenever the measurements can be explained", "statement": "rfsMeasurementLikelihood returns a positive number if some assignment of the measurements to landmarks and clutter has positive probability, however many assignments there are, although only the best of them are summed up in large groups; in particular it never vanishes if no landmark is detected with certainty and clutter is possible everywhere.", "quantifier": "all likelihood tables, detection probabilities, clutter intensities, partitions and numbers of landmarks and measurements", "why_tests_cant": "groups with more than 200 assignments are too many to enumerate in a test, and truncation errors are only visible there", "anchors": ["include/RBPHDFilter.hpp:825-1000", "include/RBPHDFilter.hpp:905-990"]}
{"id": "C198", "title": "Runs of the CB-MeMBer filter are defined and keep valid maps", "statement": "From a new CB-MeMBer filter, any sequence of predict, update and threshold calls divides by no zero, reads nothing out of range and no deleted Gaussian; at every point the filter holds its n particles with positive weights and maps whose tracks have a probability of existence below one, at least the pruning threshold unless just born, and Gaussians of positive weight. The moves of tracks are the ones that happen in memory.", "quantifier": "all sensors, clutter integrals, configurations, partitions, Murty solvers, merging functions, measurement sets, motions, landmark models, numbers of particles, random numbers and lengths of runs", "why_tests_cant": "a division by zero or a copy of a track onto itself appears only after particular sequences of updates and misses", "anchors": ["include/RBCBMeMBerFilter.hpp:280-334", "include/RBCBMeMBerFilter.hpp:428-648", "include/GMBernoulliComponent.hpp:280-291"]}
{"id": "C199", "title": "A measurement that fits the map leaves a track or a birth", "statement": "After an update of the CB-MeMBer filter every measurement that corrects some Gaussian of the map has a track made of exactly the corrections by it, every other measurement is left for a birth, and the old tracks stay with no larger probability of existence.", "quantifier": "all sensors, configurations, maps and measurement sets", "why_tests_cant": "which track is lost depends on the order of the measurements, which a test fixes", "anchors": ["include/RBCBMeMBerFilter.hpp:514-648"]}
{"id": "C200", "title": "Pruning tracks of the LMB filter keeps exactly the likely tracks and is defined", "statement": "With the tracks in the order and memory in which the code holds them, pruneTracks leaves exactly the tracks at or above the threshold and reads no deleted Gaussian; so runs of the LMB filter are defined, their maps are those of C192 in another order, and every particle has a life of its own as in C194.", "quantifier": "all lists of tracks; all sensors, configurations, merging functions, measurement sets, motions, numbers of particles, random numbers and lengths of runs", "why_tests_cant": "whether the last track of the map falls below the threshold depends on the history of misses; a read of freed memory often goes unnoticed in tests", "anchors": ["include/GMBernoulliComponent.hpp:280-291", "include/RBLMBFilter.hpp:459-486"]}
{"id": "C201", "title": "Particles of the CB-MeMBer filter do not influence each other except by resampling", "statement": "In every defined run of the CB-MeMBer filter each particle is the result of a life of its own: its map, births and weight come from its own pose, map and the measurements; resampling copies a particle into another slot, where the births of the slot are waiting; weights are those of the lives up to one common factor.", "quantifier": "all sensors, configurations, measurement sets, motions, landmark models, numbers of particles, random numbers and lengths of runs", "why_tests_cant": "a mix-up between particles shows only in particular patterns of resampling and births", "anchors": ["include/RBCBMeMBerFilter.hpp:280-334", "include/RBCBMeMBerFilter.hpp:428-648"]}
{"id": "C202", "title": "A newly constructed filter can be used as it is", "statement": "A filter that is constructed and then used, without a value being assigned to any member of its configuration, takes every decision from values its constructor has set: no call to predict or update reads a member that was never set.", "quantifier": "for all sensors, poses, numbers of particles, draws and sequences of calls to predict and update", "why_tests_cant": "an unset member holds whatever was in memory before, often zero, so that a test passes or fails by chance; and the drivers that tests run set the members from a file", "anchors": ["include/RBPHDFilter.hpp:371-383", "include/RBPHDFilter.hpp:485", "include/RBLMBFilter.hpp:352-363", "include/RBLMBFilter.hpp:535", "include/RBCBMeMBerFilter.hpp:355-363"]}
{"id": "C203", "title": "Every landmark of the PHD filter goes back to measurements it received", "statement": "At every point of a run, every landmark in the map of any particle was placed by the inverse of a measurement that was received, and since then only corrected by received measurements inside the gate or close to the candidate, moved by the landmark model and merged with others of that kind; so any property of landmarks that the inverse measurement establishes and these steps keep, a valid covariance for instance, holds for all landmarks of all runs.", "quantifier": "all sensors, configurations, merging functions, measurement sets, motions, landmark models, numbers of particles, random numbers and lengths of runs", "why_tests_cant": "a stale entry of the weighting table or a candidate of another particle put into a map shows only for particular sizes and orders of updates, and a test sees only the landmarks of its own run", "anchors": ["include/RBPHDFilter.hpp:545-727", "include/RBPHDFilter.hpp:1004-1088", "include/RBPHDFilter.hpp:417-543"]}
{"id": "C204", "title": "Every Gaussian of the LMB and CB-MeMBer filters goes back to measurements received", "statement": "At every point of a run, every Gaussian of every track of any particle was placed by the inverse of a measurement that was received, and since then only corrected by received measurements, moved by the landmark model and merged with others of that kind; the moves of tracks within the map put nothing else into it. So any property of Gaussians that the inverse measurement establishes and these steps keep holds for all of them in all runs.", "quantifier": "all sensors, configurations, partitions, Murty solvers, merging functions, measurement sets, motions, landmark models, numbers of particles, random numbers and lengths of runs", "why_tests_cant": "a Gaussian left over from a track that was moved or from another particle shows only for particular orders of misses, births and resamplings", "anchors": ["include/RBLMBFilter.hpp:516-884", "include/RBCBMeMBerFilter.hpp:514-648", "include/GMBernoulliComponent.hpp:267-291", "include/RBLMBFilter.hpp:276-332"]}
{"id": "C205", "title": "No particle has more tracks than measurements were received", "statement": "At every point of a run of the LMB or CB-MeMBer filter, the number of tracks in the map of any particle is at most the number of measurements in all updates so far: each measurement makes at most one track.", "quantifier": "all sensors, configurations, partitions, Murty solvers, merging functions, measurement sets, motions, numbers of particles, random numbers and lengths of runs", "why_tests_cant": "a bound over runs of any length with any measurements and resamplings; one run shows nothing about the others", "anchors": ["include/RBLMBFilter.hpp:276-332", "include/RBLMBFilter.hpp:516-884", "include/RBCBMeMBerFilter.hpp:280-334", "include/RBCBMeMBerFilter.hpp:514-648", "include/GMBernoulliComponent.hpp:280-291"]}
