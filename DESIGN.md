# Formal model of rfsslam in Rocq (Coq 8.16.1)

The sources in /repo are read as text; nothing is built or run.  Every model
definition cites the file and lines it transcribes.  Files live in
`rocq/theories/`.  For an area `X`:

* `XModel.v` – executable Gallina transcription of the code (no proofs)
* `XSpec.v`  – small independent specification (only where the statement needs
  notions that are not already in the standard library)
* `XProofs.v` – lemmas
* `XProperties.v` – only `Theorem … Proof. exact … . Qed.`, `Print Assumptions`
  and the `Example`s that show the hypotheses are met by concrete states.

Conventions

* **Undefined behaviour is a value.**  Where the C++ dereferences NULL, reads a
  freed object, indexes out of bounds, overflows `int32_t`, or increments an
  `end()` iterator, the model returns a distinct outcome (`UB …` / `None`), and
  theorems state either that it is not reached or exactly when it is.
* **Loops** become structural recursion or recursion on explicit fuel with a
  separate out-of-fuel outcome that the theorems exclude.
* **Numbers.**  `double` arithmetic is not modelled bit by bit.  Algorithms that
  only add, subtract and compare (Hungarian, Murty, brute force, reduction) are
  modelled over `Z`: for integer-valued matrices of magnitude below 2^53 / (2n)
  every intermediate double is exact, and the code's tolerances (1e-14, 1e-12)
  then mean "equal".  Algorithms that divide (resampling, normalisation,
  merging, permanent, likelihood sums) are modelled over `Q`, trigonometric ones over `R`.
  Rounding is therefore outside the model; this is recorded per property.
* **False properties.**  If the faithful model violates a property, the file has
  `Cxx_…_refuted : exists …` with a computed witness, next to the strongest
  conditional statement (`…_partial`) that holds.

## Trusted base

Coq's kernel (and `vm_compute`), the reading of the C++ sources recorded in the
comments of the model files, and the axioms listed by `Print Assumptions` under each
theorem (section "Assumptions per theorem" at the end of this file).
No axioms, functors, module types, plugins or unsafe flags are introduced.

## Plan per property

| id | model | proof plan |
|----|-------|------------|
| C01–C03 | `TimeStampModel`: int32 arithmetic on `Z` with an overflow outcome, C `/` `%` as `Z.quot`/`Z.rem`, normalize as written | case analysis + `lia`/`nia` on the denotation `sec*10^9+nsec` |
| C04–C08 | `GMModel`: mixture as list of slots (NULL or landmark id, weight, previous weight), heap of landmarks for C08 | invariants over operation lists; prune binary search by induction on the interval; merge by fold invariants |
| C09, C42 | `TracksModel`: vector of tracks with swap-with-last deletion, self copy is use-after-free | witness + conditional theorem (which positions fail) |
| C10–C11 | `HungarianModel`: the code's loop over `Z` matrices with fuel | feasibility of labels, tight matching, alternating tree invariants; fuel bound; weak duality gives optimality |
| C12–C14 | `ReduceModel`: reduce/getCostMatrixReduced and `run<CostMatrix>` | characterisation of fixed pairs; exchange argument; witness for the wrong return value and for the second call |
| C15–C16 | `PartitionModel`: connected components (specified, Boost is external) + the in-place zero merge; allocation cache | loop invariant of the merge; cache state machine |
| C17–C18 | `RfsModel`/`RfsSpec`: rfsMeasurementLikelihood over `Qc`, partitions from `PartitionModel`, permutations from `LexModel` | recursion `asum` for the hypothesis sum, invariance under permutation, factorisation over blocks; lexicographic and Murty sums shown equal to it; what the best 200 leave out bounded by comparing means of sorted lists |
| C19–C21 | `MurtyModel` on top of an assignment solver | partition of the assignment space invariant over the priority queue; witnesses for C20, C21 |
| C22 | `LexModel`: o_, next_permutation, tail reversal | lexicographic successor correctness |
| C23 | `LexModel` (BruteForceLinearAssignment) | enumeration + heap order; witnesses for minimisation |
| C24 | `PermanentModel`: Gray code loop over `Q` | Gray-code invariant, subset sum identity (Ryser/Glynn) |
| C25–C27 | `ParticleModel`: normalise, low-variance scan, in-place copy, ids | counting argument with floor/ceil; slot invariants; witnesses for ids |
| C28 | `PropagateModel`: interleavings of loop bodies sharing two temporaries | witness schedule; theorem for private temporaries |
| C29–C30 | `RVecModel`: cache flags as state machine over abstract matrix functions | invariant over histories; witness |
| C31–C34 | `SpatialModel`: cells, add with root doubling and branching, remove with collapse, box query, closest query | abstraction to multiset; geometric lemmas |
| C35–C37 | `OspaModel` on a specified assignment solver (discharged by C10) | optimality transfer |
| C38 | `JCBBModel`: branch with the ancestor scan as written, pop order as oracle | witness; conditional theorem |
| C39–C40 | `PhdModel`/`PhdSpec`: updateMap of the PHD filter over `Qc` with a bounds-checked table of any content and shape; `Loop`: counting loops | one loop invariant per source loop gives the exact result, algebra on it gives the conservation laws; witnesses for the false parts |
| C53, C57 | `TracksModel`: getMaxGaussian over the slots, copyTo of multi-Bernoulli sets on the heap of `GMModel` | induction over slots; ownership invariant of C08 |
| C54–C56 | `GMModel`: single-slot operations, sort as oracle, one pass of merge | exact effect on the readable contents; witness for merge |
| C58, C59 | `ParticleModel`: effective number of particles, the resampling test, copies with null data | arithmetic over `Q`; witness |
| C60 | `OspaModel` with the assignment optimum of C10 | triangle inequality through composed assignments |
| C41, C61, C62 | `BirthModel`/`BirthSpec`: addBirthGaussians with iterator outcomes, the per-slot lists, resampling copies, histories of update and predict | induction over the scan, loop and history invariants, witnesses |
| C43, C63, C64 | `LmbModel`/`LmbSpec`: updateMap of the LMB filter (view, table, partitions, both hypothesis loops, new tracks, birth list), joint events Gone/Missed/Seen | recursive association sums: block sums multiply to the sum over all joint events; row loop invariants; witnesses |
| C44, C65–C67 | `FastModel`/`FastSpec`: update and updateMap of FastSLAM on top of `ReduceModel`, `MurtyModel`, `BirthModel`: table over `Z`, hypotheses, odds of existence over `Qc`, candidate lists, splitting of particles | score of an assignment = gain of the association it stands for; optimality through reduction and Murty; loop invariants over landmarks, hypotheses and particles; simulation for left-over candidates; witnesses |
| C45–C47, C68–C71 | `PsoModel`/`PsoSpec`: topology, evaluateLikelihoods as interleavings of statements, moveParticles on top of `OspaModel`, times and measurements of a batch | invariant over all interleavings (stage of every iteration, best so far or not above the previous round); invariant over histories of evaluate and move; loop invariants for draws, deletion by swap and addition as permutations; correctness of the bisection; witnesses |
| C48, C72–C74, C76 | `KalmanModel`/`KalmanSpec`: both overloads of correct for any model (linear algebra, likelihood, innovation as arguments), scalar instance over `Qc`; `KalmanMxModel`: gain, covariance and mean for matrices of any dimension (mathcomp, any ordered field) | case analysis of the control flow and loop invariants; information-form invariant over sequences; positive semi-definite quadratic forms, Joseph form; witnesses |
| C49, C75 | `AngleModel`: the wrap loops over `R` and over IEEE doubles (Flocq), innovation and distance of range-bearing measurements | Archimedean induction; rounding error below 2^56 and fixed point of the subtraction above; witnesses |
| C50, C51, C77–C80 | `SensorModel`/`SensorSpec` over `R`: measure, inverseMeasure, probabilityOfDetection, clutterIntensity and its integral of the 1D, XY, range-bearing and 6D models | atan2 characterised by cases; rotation of a unit quaternion; derivative along any smooth path (Coquelicot `is_derive`); integrals (`RInt`, `is_lim` for the amplitude); matrix identities; witnesses |
| C52, C81–C88 | `OdometryModel`/`OdometrySpec` over `R`: step of the four process models, sample, motion likelihood with gradient, Gaussian densities also with IEEE special values | uniqueness of the principal angle; quaternion algebra; induction over sequences of steps; derivative along any smooth path (Coquelicot); case analysis on special values; witnesses |
| C89–C94 | `MemberModel`/`MemberSpec` over `Qc`: updateMap of CB-MeMBer without importance weight, weights that are infinite or NaN as None, NaN probabilities as DivByZero; addBirthTracks of CB-MeMBer and LMB, update, predict and resample as steps over slots | sums over tracks in closed form; joint events enumerated by induction over the tracks, two sums with and without the head count; invariant "the lists of every slot fit the stored measurements" | false for certain tracks (C89–C91), for two measurements (C92), for empty updates (C93, C94) and after resampling (C93): witnesses |
| C95–C103 | `CeresModel` (generic and `Qc`: inputs, scans, initial map, parameter array, value of a scan) and `CeresGradModel` (`R`: value and gradients of a scan by partitions, motion gradients, pair likelihood); Murty's results as lists that are sorted and complete enough (`ranked`), partitions as lists (`blocks_of`, obtained from the partition model), exp(BIG_NEG_NUM) next to the best assignment is zero, detection probability constant in the gradient, vectors as functions | value: partition and permanent lemmas of C15–C18 with odds; gradients: log-sum-exp differentiated block by block, the loop over assignments as a weighted sum of differences to the best; index arithmetic by induction over rows; initMap as fold over the timed measurements | false for missed landmarks (C95), the pose gradient (C96), landmarks out of view (C97), mixed known and unknown associations (C98), gaps in the numbers (C99), motion in the plane (C101), no inputs/addInput (C102), bearings across the border (C103): witnesses |
| C104–C109 | `WeighModel`/`WeighSpec` over `Qc`: importanceWeighting of the PHD filter after `PhdModel`'s updateMap (selection of points, intensities, likelihood of `RfsModel`), the weight factor of CB-MeMBer | invariant of the selection loop on a sorted list; permutation invariance of the sums; exact association sum of `RfsProofs5`; witnesses |
| C110–C121 | `SimModel`/`SimSpec`: schedules of landmarks and segments over Z, draws as a stream of Qc, Poisson table over R, detections, delivery loop of run, export, ISAM lines, log rows with six printed decimals and the reader of analysis2dSim | closed form of the schedule by induction; loops with fuel and an exact termination condition; simulation of the reader by the list of pending rows; witnesses by computation |
| C122–C128 | `VpModel`/`VpSpec` over `R`: measure, inverseMeasure, both detection functions and clutter of the Victoria Park sensor on top of the range-bearing model; scans as lists with bounds checks, loops over beams and neighbours with fuel, exact floor and ceil | rotation by a quarter turn on the range-bearing theorems; beam loop against the arithmetic of beam angles; shoelace formula for the area; witnesses |
| C129–C133 | `OrbModel`/`OrbSpec`: 256-bit descriptors as lists of bits, lrand48 as a stream, exact rational powers | induction over bit lists; binomial theorem over the list of all descriptors; loop invariant of the shifts; witnesses |
| C134–C138 | `FrameModel`/`FrameSpec`: frames over `R`, covariance pointers as options; generators as lists of engine and distribution states with an abstract draw | trigonometric identities, uniqueness of the principal angle; projection of an interleaving to one thread by induction; witnesses |
| C139–C142, C148 | `ReplayModel`/`ReplaySpec`: the message loop and the dead reckoning of the Victoria Park drivers; the filter observes the calls made | invariant over prefixes of the message list; measurements of a time are a segment of the ordered list; witnesses |
| C143 | the readers of the scan and message files over lists of rationals, with the stale buffer | induction on scans, fuel excluded by `fuel_enough`; witnesses |
| C144, C146 | artificial clutter and logged weights over `R` | Poisson table of `SimModel`; witnesses |
| C145 | property tree numbers without sign, exponent or white space | digit lists; Cauchy-Schwarz for the effective number of particles; witness |
| C147 | trajectories as lists of poses, propagate and resample | induction on operations; path is a function; witness |
| C149–C152 | `DriveModel`/`DriveSpec`: residuals, parameter blocks and objectives of the Ceres drivers over the reals; the solver itself is outside the model | uniqueness of the representative angle; induction over odometry and scans; affine relation of the sums; witness with direct computation |
| C153–C156 | array lengths, `deadReckoning_pose_`, format strings and landmark schedule of the drivers; `fprintf` with too few arguments and reads past the end are distinct outcomes | lengths of blocks; induction over the loops; witnesses |
| C157, C158 | `generateMeasurements` for arbitrary noise, draws and false alarms, and its delivery through `c_setInputs`/`c_addMeasurements` | loop invariants over landmarks and steps; position found by `lower_bound` |
| C159, C160 | the driver loop as a list of acts, one particle under it with arbitrary likelihood, solver and move | closed form of the loop; induction over iterations; witnesses |
| C161, C163 | writing back the answer of the solver, the component-wise move of a trajectory | induction over poses; closure of the set of reachable trajectories |
| C162 | diagonals of the covariances of the simulator and of the filter in space | order of the components; witness |
| C164, C167 | `AmpModel`: measurement objects with uninitialised members as `None`, programs on a list of objects, rows of the file | invariant over programs relating each object to its origin; simulation by value semantics; injectivity up to the columns written |
| C165, C166 | likelihood factor and clutter factor over the reals; the stream of normal draws with fuel | exponent as a quadratic, monotone exponential; induction on fuel; derivative of the distribution function; positive integral (Coquelicot) |
| C168, C169 | `MeasurementModel::sample` and the detection test of the simulators, Cholesky factor as a parameter | reduction to `measure_rb_ok`; case analysis on the tests; witness with diagonal noise |
| C170, C171 | AccessModel.v: getGMSize/getLandmark/getTrack over the mixtures of GMModel.v and the tracks of TracksModel.v; checkMapIntegrity with numbers that may be NaN | exact value of every call by cases on the slot; merge then prune with a positive threshold restores maps without empty slots; refutations by computation. |
| C172, C173, C174 | AccessModel.v: convertLogFiles on files as lists of parsed lines (number formatting and fscanf's tokenising are not modelled) and a directory of four files | characterisation of status 0 both ways by induction on the file; pose parts as list segments. |
| C175 | JointModel.v: the distance part of JCBB::branch for matrices of any size over an ordered field (mathcomp); a hypothesis is the list of its associations | block inverse through the Schur complement (invertible by the determinant of the block matrix), induction over the hypothesis; scalar witnesses. |
| C176, C177 | PlainModel.v: rfsMeasurementLikelihood(k) of RFSCeresSLAM (likelihoods, derivatives, clutter intensities and k-best assignments as oracles with the contract of C21; scalar derivatives, one component of the vectors) | the loops compute the tables, the components factorise the sum (C17, C18), the gradient of a landmark is the sum of a table with that row replaced; computation (refutations) |
| C178–C182 | IsamModel.v: reading of ISAM files by RBLMBSLAM_2D/RBPHDSLAM_2D (lines as parsed by sscanf), their City Trees programs, covariance of simulated measurements, holding of particles in run(), reading of ospaErrorFromFile; poses, motion, inverse measurement, filter and the answers of the user are oracles | inductions over lines, steps and points; covariance by cofactors; witnesses for the false parts |
| C183–C187 | FastRunModel: FastSLAM constructor, predict, update around the map update, resampleWithMapCopy, on top of ParticleModel; map updates are any function given with each call | induction over runs with a log of resamplings; loop invariant for the in-place copy of candidates; C183 refuted at the second resampling, C184 for negative counts |
| C188–C191 | RbRunModel: constructor, predict, update and resampling part of RBPHDFilter, RBLMBFilter and RBCBMeMBerFilter on top of ParticleModel; map update, weighting, births, motion and static step of a particle are any functions given with each call | induction over runs with a log of resamplings; a separate inductive definition of the history of one particle is the specification; weights proportional to products by invariant; C190 refuted for negative settings, C191 for an unset threshold |
| C192–C193 | TrackRunModel: `update` and `predict` of the LMB filter as a closed loop: the map update of LmbModel, `mergeGM`, `pruneTracks`, `pruneGM`, weighting, resampling (ParticleModel), births read from `measurements_`, motion and static step. Merging, Kalman correction, inverse measurement, boost components, Murty: functions with a contract (TrackRunSpec) | invariant over call sequences: any property of maps kept by one map update and by births and static step is kept by every run (`trun_from`); instances `fair`, `good`, and "has a track without Gaussians"; witnesses by vm_compute |
| C194 | the loop of TrackRunModel; TrackLifeSpec describes one particle on its own by an inductive relation | invariant: every particle has a life, weights proportional to those of the lives; refinement of TrackRunModel by RbRunModel with the map update as its per-particle function |
| C195 | PhdRunModel: predict and update of the PHD filter with the map update (PhdModel), weighting (WeighModel) and births (BirthModel) plugged in; sensor, merging, sort, components and Murty from outside | invariant over runs: positive weights, non-negative maps, candidate lists empty, unused measurements and parents in range; C197 keeps weights positive; refinement by RbRunModel; false without its conditions (three witnesses) |
| C196 | the same | invariant: mass of every map plus birth weight times waiting measurements is bounded by what was heard; candidates left after a scan have too few measurements, so each birth takes a waiting measurement |
| C197 | RfsModel | positive summand of the association sum gives a finite-cost assignment in every group, so the best one found is positive |
| C198 | MemberRunModel: predict and update of the CB-MeMBer filter on lists of tracks, with map update and weights (MemberModel, RfsModel), births (BirthModel), merging and pruning plugged in; squeezing and pruning with the self-copy as undefined behaviour; sensor, clutter integral, merging, components and Murty from outside | invariant over runs; the only undefined behaviour left is the self-copy in pruneTracks; refinement of both moves by TracksModel; two witnesses that the conditions are needed |
| C199 | the same | the loop over the tracks of measurements, for measurements ordered by fit; a witness for other orders |
| C200 | ExactModel: update of one particle of the LMB filter with pruning in place (`drop` of MemberRunModel, compared with memory in C198) | exact condition for the self-copy, by induction from the end of the list; otherwise a permutation of the tracks of TrackRunModel; runs by a theorem on map updates that may be undefined; a witness with the default thresholds |
| C201 | MemberRunModel | the same theorem on runs, which also gives lives of particles (TrackLifeSpec) |
| C202 | The configurations the constructors of the PHD, LMB and CB-MeMBer filters leave behind, with None for members never set and Uninit for reading one, in the closed loops of C195, C198, C200. | CB-MeMBer: equal to the runs with the defaults, for all calls. LMB: by induction over the calls maps stay empty until the first update with measurements, which reads expectedBirths_; PHD: such an update reads useClusterProcess_ first. With these set, runs equal those with the defaults. |
| C203 | the runs of C195; an inductive relation says which landmarks go back to received measurements | invariant over the calls: maps, birth candidates and stored measurements of every slot are of that kind; a map update keeps old landmarks and adds only corrections inside the gate (exact result of C39), births keep it also when candidates are taken over from another slot |
| C204 | the runs of C198 and C200; the relation of C203 for Gaussians of tracks | a predicate kept by corrections is kept by the rows, partitions and normalisations of the LMB update, by the new tracks of CB-MeMBer and by the moves of both; then invariant over the calls for any map update that keeps it |
| C205 | the runs of C198 and C200 | invariant: bounds of the lengths of maps and of lists of waiting births; the moves keep lengths or cut. CB-MeMBer without resampling: the two lengths of a slot together. A run with two measurements and three tracks refutes the rest |

Not expressible: floating-point rounding and the numeric quality of Eigen
factorisations are outside all models; properties above are stated in exact arithmetic.

## What is modelled

The exact lines stand in the comment of each definition; the ranges below are the first and last
line cited per source file.

| model | sources |
|-------|---------|
| `AccessModel.v` | RBPHDFilter.hpp (1100–1182), FastSLAM.hpp (769–797), RBLMBFilter.hpp (381–416), RBCBMeMBerFilter.hpp (381–416), Pose.hpp (50–143), src/convertLogFiles.cpp (53–89), ParticleFilter.hpp (199–200), src/rbphdslam6dSim.cpp (733–738), RBPHDSLAM_2D.hpp (831–836), GaussianMixture.hpp (60–214), RandomVec.hpp (655–656) |
| `AmpModel.v` | Measurement_amplitude.hpp (11–91), src/rbphdslam2dSim_amplitude.cpp (325–434), MeasurementModel.hpp (129–160), RandomVec.hpp (456–618), RBPHDSLAM_2D.hpp (517–531) |
| `AngleModel.v` | src/KalmanFilter.cpp (28–42), src/KalmanFilter_RngBrg_amplitude.cpp (52–66), KalmanFilter_VictoriaPark.hpp (56–75), src/MeasurementModel_RngBrg.cpp (91–92), src/MeasurementModel_RngBrg_amplitude.cpp (91–92), KalmanFilter.hpp (151–259), RandomVec.hpp (58–448) |
| `BirthModel.v` | RBPHDFilter.hpp (97–1088) |
| `CeresGradModel.v` | RFSCeresSLAM.hpp (232–1184), RandomVec.hpp (530–549) |
| `CeresModel.v` | RFSCeresSLAM.hpp (227–1184) |
| `ConfigModel.v` | RBPHDFilter.hpp (86–748), RBLMBFilter.hpp (82–538), RBCBMeMBerFilter.hpp (84–612), src/rblmbslam2dSim.cpp (473–473), RBPHDSLAM_2D.hpp (688–880) |
| `DriveModel.v` | src/rfsceresslam1dSim.cpp (61–755), src/rfsceresslam2dSim.cpp (57–770), src/rfspsoslam1dSim.cpp (192–610), src/rfspsoslam2dSim.cpp (198–627), src/rfspsoorbslam1dSim.cpp (195–622), RFSPSOSLAM.hpp (404–488), src/rbphdslam6dSim.cpp (116–539), RFSCeresSLAM.hpp (431–495), MeasurementModel.hpp (150–157), RFSPSOParticle.hpp (62–62) |
| `ExactModel.v` | RBLMBFilter.hpp (459–884), GaussianMixture.hpp (279–295), GMBernoulliComponent.hpp (267–291) |
| `FastModel.v` | FastSLAM.hpp (112–736), ParticleFilter.hpp (278–301) |
| `FastRunModel.v` | FastSLAM.hpp (73–766), ParticleFilter.hpp (333–399), src/fastslam2dSim.cpp (570–600) |
| `FrameModel.v` | src/Frame.cpp (85–94), src/GaussianGenerators.cpp (38–40), RandomVec.hpp (607–660), Frame.hpp |
| `GMModel.v` | GaussianMixture.hpp (50–593), RandomVec.hpp (54–452), Landmark.hpp |
| `HungarianModel.v` | HungarianMethod.hpp (90–587) |
| `IsamModel.v` | RBLMBSLAM_2D.hpp (67–985), RBPHDSLAM_2D.hpp (471–796), src/rblmbslamCityTrees10000.cpp (62–83), src/rbphdslamCityTrees10000.cpp (62–83), MeasurementModel.hpp (69–88), RBLMBFilter.hpp (374–378), src/fastslam2dSim.cpp (580–583), src/rbphdslam2dSim_amplitude.cpp (559–562), src/rblmbslam2dSim.cpp (576–579), src/rbcbmemberslam2dSim.cpp (578–581), src/rbphdslam6dSim.cpp (693–696) |
| `JCBBModel.v` | JCBB.hpp (106–520), Tree.hpp (116–116) |
| `JointModel.v` | JCBB.hpp (378–484) |
| `KalmanModel.v` | KalmanFilter.hpp (116–360), src/MeasurementModel_Rng1D.cpp (67–135), ProcessModel.hpp (314–327), RandomVec.hpp (69–660), MeasurementModel_Rng1D.hpp (59–65), MeasurementModel.hpp (221–221) |
| `KalmanMxModel.v` | KalmanFilter.hpp (218–268), src/MeasurementModel_XY.cpp (92–102), src/MeasurementModel_Rng1D.cpp (83–84) |
| `LexModel.v` | src/PermutationLexicographic.cpp (38–96), src/BruteForceAssignment.cpp (40–121), PermutationLexicographic.hpp (75–80) |
| `LmbModel.v` | RBLMBFilter.hpp (430–884), GMBernoulliComponent.hpp (50–113), GaussianMixture.hpp (317–593) |
| `MemberModel.v` | RBCBMeMBerFilter.hpp (204–640), RBLMBFilter.hpp (205–538), GaussianMixture.hpp (583–593), ParticleFilter.hpp (408–500) |
| `MemberRunModel.v` | RBCBMeMBerFilter.hpp (88–648), GMBernoulliComponent.hpp (102–291), GaussianMixture.hpp (279–295) |
| `MurtyModel.v` | src/MurtyAlgorithm.cpp (72–336), MurtyAlgorithm.hpp (86–220), RBPHDFilter.hpp (955–975) |
| `OdometryModel.v` | src/ProcessModel_Odometry1D.cpp (39–63), src/ProcessModel_Odometry2D.cpp (41–96), src/ProcessModel_Odometry6D.cpp (41–84), src/ProcessModel_Ackerman2D.cpp (49–82), ProcessModel.hpp (148–229), RandomVec.hpp (426–660), src/TimeStamp.cpp |
| `OrbModel.v` | ORB.hpp, LandmarkWithDescriptor.hpp (47–57), MeasurementWithDescriptor.hpp (48–54), MeasurementModelWithDescriptor.hpp (58–138) |
| `OspaModel.v` | OSPA.hpp (112–246), COLA.hpp (93–101), src/analysis2dSim.cpp (246–247) |
| `ParticleModel.v` | Particle.hpp (46–245), ParticleFilter.hpp (49–502), Trajectory.hpp (56–56) |
| `PartitionModel.v` | src/CostMatrix.cpp (13–231), CostMatrix.hpp (100–115) |
| `PermanentModel.v` | src/MatrixPermanent.cpp (41–113) |
| `PhdModel.v` | RBPHDFilter.hpp (258–1221), KalmanFilter.hpp (266–330) |
| `PhdRunModel.v` | RBPHDFilter.hpp (66–1088), GaussianMixture.hpp (408–573), ParticleFilter.hpp (203–399), RBPHDSLAM_2D.hpp (784–880) |
| `PlainModel.v` | RFSCeresSLAM.hpp (559–866) |
| `PropagateModel.v` | ParticleFilter.hpp (329–349) |
| `PsoModel.v` | RFSPSOSLAM.hpp (219–735), RFSPSOParticle.hpp (52–63) |
| `RVecModel.v` | RandomVec.hpp (68–680) |
| `RbRunModel.v` | RBPHDFilter.hpp (66–543), RBLMBFilter.hpp (116–512), RBCBMeMBerFilter.hpp (119–511), ParticleFilter.hpp (330–399), RBPHDSLAM_2D.hpp (784–880) |
| `ReduceModel.v` | src/CostMatrix.cpp (237–373), src/HungarianMethod.cpp (36–69), CostMatrix.hpp (166–175) |
| `ReplayModel.v` | src/rbphdslam_VictoriaPark.cpp (90–584), src/fastslam_VictoriaPark.cpp (609–609), ParticleFilter.hpp (303–398), Trajectory.hpp (56–56) |
| `RfsModel.v` | RBPHDFilter.hpp (826–1000), RBCBMeMBerFilter.hpp (668–800), RBLMBFilter.hpp (889–1038), RFSPSOSLAM.hpp (738–941), CostMatrix.hpp (104–104), src/CostMatrix.cpp (101–101) |
| `SensorModel.v` | src/MeasurementModel_Rng1D.cpp (133–159), src/MeasurementModel_XY.cpp (157–184), src/MeasurementModel_RngBrg.cpp (77–178), src/MeasurementModel_RngBrg_amplitude.cpp (169–179), src/MeasurementModel_6D.cpp (87–193), RandomVec.hpp (75–80), MeasurementModel_RngBrg.hpp (65–71) |
| `SimModel.v` | RBPHDSLAM_2D.hpp (448–841), RBLMBSLAM_2D.hpp, src/rbphdslam6dSim.cpp (412–430), src/analysis2dSim.cpp |
| `SpatialModel.v` | SpatialIndexBox.hpp (175–397), Tree.hpp (115–187), SpatialIndexTree.hpp (56–529) |
| `TimeStampModel.v` | TimeStamp.hpp (109–154), src/TimeStamp.cpp (67–71) |
| `TrackRunModel.v` | RBLMBFilter.hpp (57–655), RBCBMeMBerFilter.hpp (280–511), ParticleFilter.hpp (203–399), src/rblmbslam2dSim.cpp (560–640), GMBernoulliComponent.hpp (267–291), GaussianMixture.hpp (408–573), MeasurementModel.hpp (60–170) |
| `TracksModel.v` | GMBernoulliComponent.hpp (102–291), RBCBMeMBerFilter.hpp (549–640) |
| `VpModel.v` | src/MeasurementModel_VictoriaPark.cpp (76–251), MeasurementModel_VictoriaPark.hpp (134–147) |
| `WeighModel.v` | RBPHDFilter.hpp (86–867), RBCBMeMBerFilter.hpp (528–646), GaussianMixture.hpp (60–396) |

## What is not modelled

* Rounding, overflow to infinity and denormals of `double`, except where a file says so
  (`AngleModel`'s wrapping in doubles with Flocq for C49, NaN in `VpModel` and `AccessModel`).
* Input and output formatting, console output, timers, XML configuration readers, command lines:
  values read are parameters of the models; written files are lists of rows.
* Threads: loops marked `omp for` are sequential except where a property is about them (C28, C45, C138).
* `VectorGLMBSLAM2D.hpp`: does not compile as it stands (dynamic_cast to a
  non-pointer, comparison of vectors with 0).  `RandomVecMathTools::sample`: passes a double as TimeStamp.
* Python and MATLAB visualisation, `Visualizer6D`, tests, memory and CPU profiling helpers.
* Drivers that repeat another driver line by line (`rbphdslam2dSim`, `rblmbslam2dSim`, `rbcbmemberslam2dSim`,
  `fastslam2dSim` share the simulator of `RBPHDSLAM_2D.hpp`): modelled once in `SimModel`.

## Oracles: what enters as a parameter

Every parameter is a Section variable (so universally quantified in the theorem) or a hypothesis visible in
the statement; none is an axiom.

* `std::sort`/`sort`: a function with contract `sorter_ok` (permutation, sorted); `isort` meets it.
* `std::priority_queue` of `MurtyModel`, `FastModel`: `pick` returns some best element and the rest.
* Murty's k best assignments in `RfsModel`, `LmbModel`, `WeighModel`, `CeresModel`: `kbest_contract`, shown
  satisfiable (`C18_kbest_exists`); C21–C24 prove the algorithm itself over `Z`.
* `boost::connected_components`: labels with contract `components_of`; `PartitionRef` meets it.
* Eigen: products, inverses and determinants are those of exact algebra; the Cholesky factor is a parameter with
  its defining equation (`chol`), or a 2 x 2 formula.
* Random numbers (`drand48`, `lrand48`, boost generators): arbitrary streams, constrained to their documented range
  where needed (`unit_stream`).
* Measurement and process models inside the filters (`probDet`, `correct`, `clutter`, `measure`, `inverse`, ...):
  arbitrary functions; their concrete versions are `SensorModel`, `OdometryModel`, `VpModel`, `AmpModel`, `OrbModel`.
* Logarithm and exponential in likelihood sums: products of exact numbers; `expf`, `expo` where a monotone function is
  enough.
* Closed loops: the map update, weighting, births, motion and static step of `RbRunModel` and `FastRunModel` are any
  functions; `TrackRunModel`, `ExactModel`, `MemberRunModel`, `PhdRunModel`, `ConfigModel` run the modelled map updates,
  with the sensor, Kalman correction, inverse measurement, components, Murty, merge, sort and exp as functions with the
  contracts of their Spec files (`sensor_sound`, `outside_sound`, `csensor_sound`, `hsensor_sound`, ...), and the
  uninitialised `resampleOccured_` of the PHD filter as `g0`.
* `IsamModel`: lines as parsed by sscanf, poses and filter as functions.  `JointModel`: any ordered field.
* Distances in `OspaModel` and scores in `HungarianModel`/`MurtyModel`: integers.  `SpatialModel`, `PhdModel`,
  `BirthModel`, `LmbModel`, `MemberModel`, `WeighModel`, `FastModel`, `JCBBModel`: exact rationals.

## Assumptions per theorem

`Print Assumptions` stands under every theorem.  "Closed" means it prints "Closed under the global context".
The axioms are those of the standard library's classical reals and functional extensionality, nothing else.
(`vcheck` lists further names under "library_axioms": opaque constants of mathcomp, ssreflect and the reals;
`Print Assumptions` of the theorems here does not show them.)

* **Closed** (487): C01_add_exact_iff, C01_add_silent_wrap, C01_add_ub_iff, C01_assign_forms, C01_history_exact, C01_history_normal, C01_make_exact_iff, C01_setTime_accurate, C01_setTime_defined, C01_setTime_getTime, C01_sub_exact_iff, C01_sub_ub_iff, C02_boolean_combinations, C02_compare_agrees_with_time, C02_transitive, C02_trichotomy, C03_add_comm, C03_add_monotone, C03_add_sub_cancel, C03_sub_add_cancel, C03_sub_self, C04_count, C04_defined_iff, C04_holes_zero_partial, C04_holes_zero_refuted, C05_prune_exact, C06_merge_conserves, C06_merge_zero_iff, C07_after_prune, C07_normalize_partial, C07_refuted, C07_weightSum_error, C07_weightSum_partial, C08_copyTo_equal, C08_copy_ctor_equal, C08_copy_ctor_ub_iff, C08_independent, C08_memory, C08_refuted, C08_self_copy_ub_iff, C09_pruneTracks_partial, C09_refuted, C09_ub_iff, C10_hungarian_optimal, C11_hungarian_restores, C12_direction_refuted, C12_reduced_partial, C12_refuted, C12_unreduced_partial, C13_reduce, C14_exact, C14_refuted, C15_components_exist, C15_partition, C16_exact, C16_refuted, C16_same_flag_partial, C16_size_refuted, C17_factorises, C17_sum_unique, C18_cut_refuted, C18_exact_partial, C18_kbest_exists, C18_loss_partial, C18_refuted, C18_seen_partial, C18_value_partial, C19_best_first, C19_queue_exists, C20_bounded_partial, C20_refuted, C21_block_partial, C21_filters_partial, C21_refuted, C22_empty, C22_lexicographic, C23_exact, C23_matrix_refuted, C23_maximise_partial, C23_queue_exists, C23_refuted, C24_empty_refuted, C24_not_square, C24_permanent, C24_permutations_exist, C25_all_zero, C25_counts_partial, C25_refuted, C25_within_one, C25_zero_weight_partial, C26_slots, C27_add_refuted, C27_fresh_partial, C27_ids_refuted, C27_parent_partial, C27_parent_refuted, C28_any_schedule_partial, C28_refuted, C28_serial_partial, C29_caches, C30_assign_refuted, C30_refuted, C30_tracked_partial, C31_history_partial, C31_refuted, C31_remove_outside_refuted, C31_remove_partial, C32_box_sound, C33_box_complete_partial, C33_refuted, C34_closest, C35_ospa_least, C35_ospa_parts, C35_ospa_range, C35_ospa_symmetric, C35_ospa_zero, C36_order_refuted, C36_ospa_order_partial, C36_refuted, C37_cola_least, C37_cola_symmetric, C37_cola_value, C37_cola_zero, C38_distinct_refuted, C38_max_refuted, C38_null_refuted, C38_order_refuted, C38_result_partial, C38_shape_refuted, C38_total_partial, C39_below_one_refuted, C39_conserved_partial, C39_nonneg, C39_refuted, C40_bounds_partial, C40_leak_refuted, C40_ownership, C40_table_free, C41_always_fails, C41_count, C41_direct, C41_measurement, C41_refuted, C41_scan_partial, C41_waiting, C42_exact, C42_refuted, C42_right_iff_partial, C42_ub_refuted, C43_existence_partial, C43_refuted, C44_all_particles_partial, C44_refuted, C44_settled_partial, C44_update_partial, C45_best, C45_no_ub, C46_random_partial, C46_redraw_partial, C46_refuted, C46_valid_partial, C47_order_partial, C47_refuted, C47_stored_partial, C48_matrix, C48_matrix_run, C48_run, C48_step, C53_empty_ub, C53_max_partial, C53_refuted, C54_addGM, C54_addGaussian, C54_multiplyWeights, C54_removeGaussian, C54_setWeight, C54_updateGaussian_partial, C54_updateGaussian_refuted, C55_refuted, C55_sort_partial, C56_refuted, C56_repeat_partial, C57_copyTo, C58_decision_partial, C58_default_refuted, C59_refuted, C59_with_data_partial, C60_cola_triangle, C60_ospa_triangle, C61_copies_partial, C61_refuted, C62_numbers_partial, C62_refuted, C63_births_partial, C63_no_map_partial, C63_refuted, C64_origin_partial, C64_refuted, C65_posterior_partial, C65_refuted, C66_distinct_partial, C66_refuted, C67_inherit_partial, C67_refuted, C67_stale_partial, C68_partial, C68_refuted, C68_stale_refuted, C69_partial, C69_refuted, C70_partial, C70_refuted, C71_partial, C71_refuted, C72_invalid_partial, C72_refuted, C72_valid_partial, C73_partial, C73_refuted, C74_partial, C74_refuted, C76_partial, C76_refuted, C85_car_refuted, C85_refuted, C89_partial, C89_refuted, C90_partial, C90_refuted, C91_partial, C91_refuted, C92_partial, C92_refuted, C93_births_partial, C93_history_partial, C93_refuted, C93_resampled_refuted, C93_slots_partial, C94_partial, C94_refuted, C95_refuted, C95_value_partial, C97_association_refuted, C98_blocks_partial, C99_map_partial, C99_refuted, C100_gradient, C100_init, C100_load, C100_onto, C102_partial, C102_refuted, C104_empty_refuted, C104_factor_partial, C104_refuted, C105, C106_contracts_exist, C106_refuted, C106_value_partial, C107_partial, C107_refuted, C108_empty_partial, C108_partial, C108_refuted, C109_empty_refuted, C109_factor_partial, C109_refuted, C110_bounds_partial, C110_count_partial, C110_refuted, C110_zero_refuted, C113_6d_partial, C113_6d_refuted, C113_ends_partial, C113_partial, C113_stuck_refuted, C114_measured_partial, C114_partial, C114_range_partial, C114_refuted, C115_blocked_partial, C115_isam_refuted, C115_partial, C115_prefix_partial, C115_refuted, C115_simulated_partial, C117_ends_partial, C117_partial, C117_reckoning, C117_refuted, C117_stuck_partial, C117_zero_refuted, C118_logged, C118_refuted, C119_blocked_partial, C119_partial, C119_refuted, C121_partial, C121_refuted, C129_count, C129_metric, C130_order_partial, C130_refuted, C131_channel, C131_probability, C131_weights, C132_random_partial, C132_rate_refuted, C132_refuted, C132_sample_partial, C132_sample_refuted, C133_likelihood_partial, C133_refuted, C133_round_partial, C138_again_partial, C138_partial, C138_refuted, C138_threads_refuted, C139_defined, C139_steps, C139_total, C140_held, C141_births, C142_partial, C142_refuted, C142_scan_refuted, C142_starved_partial, C143_broken_partial, C143_line_refuted, C143_negative_partial, C143_partial, C143_refuted, C145_always_partial, C145_double_partial, C145_ignored_partial, C145_partial, C145_refuted, C147_other_partial, C147_partial, C147_refuted, C148_reckoned, C153_line_partial, C153_map_partial, C153_plane_partial, C153_refuted, C154_line_partial, C154_refuted, C155_orb_partial, C155_partial, C156_none_partial, C156_orb_partial, C156_orb_refuted, C156_partial, C156_refuted, C158_range_partial, C159_orb_partial, C159_partial, C159_refuted, C160_orb_partial, C160_partial, C160_refuted, C167_defined, C167_partial, C170_bounds, C170_maintained, C170_partial, C170_refuted, C170_tracks, C171_exact, C171_partial, C171_refuted, C172_partial, C172_poses, C172_refuted, C173_once, C173_partial, C173_refuted, C173_refuted_exact, C174, C174_time, C175_block_partial, C175_dense_partial, C175_dense_refuted, C175_exact, C175_partial, C175_recursion, C175_refuted, C175_single_partial, C176_empty_refuted, C176_exact_partial, C176_missed_refuted, C176_partial, C176_refuted, C177_partial, C177_refuted, C178_blank_refuted, C178_file_partial, C178_last_refuted, C178_refuted, C178_settings_partial, C178_singular_partial, C179_bounds_refuted, C179_completes_partial, C179_held_partial, C179_phd_partial, C179_refuted, C179_rest_partial, C179_split_refuted, C179_time_partial, C179_time_refuted, C180_order_refuted, C180_refuted, C180_shift_refuted, C180_times_partial, C180_truth_partial, C181_lmb_partial, C181_refuted, C182_odd_partial, C182_open_partial, C182_points_partial, C182_refuted, C183_exact_partial, C183_first_partial, C183_refuted, C184_counters_partial, C184_decision_partial, C184_otherwise_partial, C184_refuted, C185_bounds, C185_map_updates, C186_defined, C187_length, C187_trajectories, C188_history, C189_weights, C190_counters_partial, C190_decision_partial, C190_refuted, C191_defined_partial, C191_refuted, C192_certain_refuted, C192_defined_partial, C192_refuted, C193_ghost_partial, C193_refuted, C193_sum_partial, C194_life, C194_refines, C195_calm_refuted, C195_certain_refuted, C195_count_refuted, C195_refines, C195_run_partial, C196_landmarks, C197_alive, C197_positive, C198_calm_refuted, C198_drop_refines, C198_refuted, C198_run_partial, C198_squeeze_refines, C199_keeps_partial, C199_refuted, C200_drop_partial, C200_refuted, C200_run_partial, C200_update_partial, C201_life, C202_lmb_partial, C202_lmb_refuted, C202_lmb_run_partial, C202_lmb_unset_refuted, C202_member_partial, C202_member_run_partial, C202_phd_partial, C202_phd_refuted, C202_phd_run_partial, C202_phd_unset_refuted, C203_keeps, C203_origin, C204_keeps, C204_lmb, C204_member, C205_calm_partial, C205_lmb_partial, C205_member_partial, C205_refuted
* **`ClassicalDedekindReals.sig_forall_dec`, `ClassicalDedekindReals.sig_not_dec`, `Classical_Prop.classic`, `FunctionalExtensionality.functional_extensionality_dep`** (90): C49_double_partial, C49_refuted, C50_rb_partial, C50_refuted, C50_zero_refuted, C52_2d_partial, C52_2d_rigid_partial, C52_2d_run_partial, C52_2d_zero_partial, C52_cov_refuted, C52_refuted, C75_refuted, C77_rb_partial, C77_refuted, C78_6d_partial, C78_amplitude_partial, C78_refuted, C78_xy_partial, C79_rb, C80_rb_partial, C81_2d_partial, C82_2d_partial, C82_refuted, C83_2d_partial, C83_noise_refuted, C83_refuted, C84_partial, C84_refuted, C86_log_partial, C86_refuted, C87_partial, C87_refuted, C87_value_partial, C96_landmark_partial, C96_pair_partial, C96_pose_partial, C96_refuted, C97_partial, C97_refuted, C98_partial, C98_refuted, C101_partial, C101_refuted, C103_partial, C103_refuted, C111_refuted, C113_xy_refuted, C116_rb_partial, C116_refuted, C116_xy_partial, C122_back, C122_measured, C122_there, C123_jacobian_refuted, C123_partial, C123_pose_refuted, C123_refuted, C124_partial, C124_refuted, C125_beams_partial, C125_partial, C126_partial, C126_refuted, C127_ends_partial, C127_partial, C127_refuted, C127_side_refuted, C134_acts, C134_assoc, C134_base, C134_heading, C134_time, C137_partial, C137_refuted, C146_logged, C146_probability, C150_models, C150_zero, C151_plane, C152_partial, C152_refuted, C165_partial, C165_refuted, C166_alarm, C166_refuted, C168_partial, C168_refuted, C169_bearing_refuted, C169_partial, C169_refuted
* **`ClassicalDedekindReals.sig_forall_dec`, `ClassicalDedekindReals.sig_not_dec`, `FunctionalExtensionality.functional_extensionality_dep`** (67): C49_innovation_partial, C49_real_partial, C50_6d_partial, C50_quat_refuted, C50_xy_partial, C51_2d, C51_6d, C52_6d_partial, C52_6d_rigid_partial, C52_6d_zero_partial, C52_quat_refuted, C75_partial, C77_1d_partial, C77_6d_partial, C77_xy_partial, C78_1d_partial, C78_rb_partial, C79_6d, C79_xy, C80_6d_partial, C80_refuted, C80_xy_partial, C81_6d_partial, C81_car_partial, C82_1d_partial, C82_exit_refuted, C83_car_partial, C83_car_turns_partial, C86_lik_partial, C88_partial, C88_refuted, C111_partial, C111_xy_partial, C112_overrun_partial, C112_partial, C112_refuted, C120_partial, C120_refuted, C123_inverse_partial, C125_complete_partial, C125_refuted, C128_empty_refuted, C128_no_echo_refuted, C128_partial, C128_refuted, C135_distance, C135_onto, C135_overloads, C135_trace_det, C135_variance, C136_partial, C136_refuted, C144_count_partial, C144_partial, C144_refuted, C144_side_refuted, C144_zero_partial, C149_exact, C149_range, C149_turns, C151_line, C161_plane_partial, C161_refuted, C164_partial, C164_refuted, C166_detection_partial, C166_ends
* **`ClassicalDedekindReals.sig_forall_dec`, `FunctionalExtensionality.functional_extensionality_dep`** (18): C50_1d_partial, C51_1d, C52_1d_partial, C79_1d, C80_1d_partial, C81_refuted, C85_exact_partial, C85_partial, C120_average_partial, C120_average_refuted, C120_best_partial, C157, C158_refuted, C161_partial, C162_partial, C162_refuted, C163, C167_refuted
* **`ClassicalDedekindReals.sig_forall_dec`** (3): C155_refuted, C164_origins, C164_values
