-Q theories Verif
theories/Base.v
theories/TimeStampModel.v
theories/TimeStampSpec.v
theories/TimeStampProofs.v
theories/TimeStampProperties.v
theories/ListUtil.v
theories/GMModel.v
theories/GMSpec.v
theories/GMProofs.v
theories/GMProofs2.v
theories/GMProofs3.v
theories/GMProperties.v
theories/GMProofs4.v
theories/GMProperties2.v
theories/TracksModel.v
theories/TracksSpec.v
theories/TracksProofs.v
theories/TracksProofs2.v
theories/TracksProofs3.v
theories/TracksProperties.v
theories/AssignSpec.v
theories/AssignLemmas.v
theories/HungarianModel.v
theories/HungarianProofs.v
theories/HungarianProofs2.v
theories/HungarianProofs3.v
theories/HungarianProperties.v
theories/ReduceModel.v
theories/ReduceSpec.v
theories/ReduceProofs.v
theories/ReduceProofs2.v
theories/ReduceProofs3.v
theories/ReduceProofs4.v
theories/ReduceProperties.v
theories/PartitionModel.v
theories/PartitionSpec.v
theories/PartitionProofs.v
theories/PartitionRef.v
theories/PartitionProofs2.v
theories/PartitionProperties.v
theories/EnumLemmas.v
theories/LexModel.v
theories/LexSpec.v
theories/LexProofs.v
theories/LexProofs2.v
theories/LexSort.v
theories/LexProperties.v
theories/PermanentModel.v
theories/PermanentSpec.v
theories/PermanentProofs.v
theories/PermanentProperties.v
theories/MurtyModel.v
theories/MurtySpec.v
theories/MurtyProofs.v
theories/MurtyProofs2.v
theories/MurtyProofs3.v
theories/MurtyPick.v
theories/MurtyProperties.v
theories/QcLra.v
theories/ParticleModel.v
theories/ParticleSpec.v
theories/ParticleProofs.v
theories/ParticleProofs2.v
theories/ParticleProofs3.v
theories/PropagateModel.v
theories/PropagateProofs.v
theories/ParticleProperties.v
theories/RVecModel.v
theories/RVecSpec.v
theories/RVecProofs.v
theories/RVecProperties.v
theories/SpatialModel.v
theories/SpatialSpec.v
theories/SpatialGeom.v
theories/SpatialTree.v
theories/SpatialOps.v
theories/SpatialRemove.v
theories/SpatialQuery.v
theories/SpatialClosest.v
theories/SpatialReach.v
theories/SpatialProperties.v
theories/OspaModel.v
theories/OspaSpec.v
theories/OspaProofs.v
theories/OspaProofs2.v
theories/OspaProofs3.v
theories/OspaProofs4.v
theories/OspaProperties.v
theories/JCBBModel.v
theories/JCBBSpec.v
theories/JCBBProofs.v
theories/JCBBProperties.v
theories/JointModel.v
theories/JointSpec.v
theories/JointProofs.v
theories/JointProofs2.v
theories/JointProofs3.v
theories/JointProperties.v
theories/RfsModel.v
theories/RfsSpec.v
theories/RfsProofs.v
theories/RfsProofs2.v
theories/RfsProofs3.v
theories/RfsProofs4.v
theories/RfsProofs5.v
theories/RfsKbest.v
theories/RfsProperties.v
theories/Loop.v
theories/PhdModel.v
theories/PhdSpec.v
theories/PhdProofs.v
theories/PhdProofs2.v
theories/PhdProperties.v
theories/BirthModel.v
theories/BirthSpec.v
theories/BirthProofs.v
theories/BirthProperties.v
theories/LmbModel.v
theories/LmbSpec.v
theories/LmbEvents.v
theories/LmbProofs.v
theories/LmbProofs2.v
theories/LmbProofs3.v
theories/LmbProofs4.v
theories/LmbProperties.v
theories/FastModel.v
theories/FastSpec.v
theories/FastProofs.v
theories/FastProofs2.v
theories/FastProofs3.v
theories/FastProofs4.v
theories/FastProofs5.v
theories/FastProperties.v
theories/PsoModel.v
theories/PsoSpec.v
theories/PsoProofs.v
theories/PsoProofs2.v
theories/PsoProofs3.v
theories/PsoProofs4.v
theories/PsoProofs5.v
theories/PsoProofs6.v
theories/PsoProperties.v
theories/KalmanModel.v
theories/KalmanSpec.v
theories/KalmanProofs.v
theories/KalmanProofs2.v
theories/KalmanProperties.v
theories/KalmanMxModel.v
theories/KalmanMxSpec.v
theories/KalmanMxProofs.v
theories/KalmanMxProperties.v
theories/AngleModel.v
theories/AngleProofs.v
theories/AngleProofs2.v
theories/AngleProperties.v
theories/SensorModel.v
theories/SensorSpec.v
theories/SensorProofs.v
theories/SensorDeriv.v
theories/SensorClutter.v
theories/SensorProperties.v
theories/OdometryModel.v
theories/OdometrySpec.v
theories/OdometryProofs.v
theories/OdometryProofs2.v
theories/OdometryWitness.v
theories/OdometryProperties.v
theories/MemberModel.v
theories/MemberSpec.v
theories/MemberProofs.v
theories/MemberProofs2.v
theories/MemberProofs3.v
theories/MemberProperties.v
theories/CeresModel.v
theories/CeresGradModel.v
theories/CeresSpec.v
theories/CeresProofs.v
theories/CeresProofs2.v
theories/CeresProofs3.v
theories/CeresGradSpec.v
theories/CeresGradProofs.v
theories/CeresGradProofs2.v
theories/CeresGradProofs3.v
theories/CeresGradProofs4.v
theories/CeresWitness.v
theories/CeresProperties.v
theories/CeresGradProperties.v
theories/WeighModel.v
theories/WeighSpec.v
theories/WeighProofs.v
theories/WeighProofs2.v
theories/WeighProofs3.v
theories/WeighProperties.v
theories/SimModel.v
theories/SimSpec.v
theories/SimProofs.v
theories/SimProofs2.v
theories/SimProofs3.v
theories/SimProofs4.v
theories/SimProofs5.v
theories/SimProperties.v
theories/VpModel.v
theories/VpSpec.v
theories/VpProofs.v
theories/VpProofs2.v
theories/VpProofs3.v
theories/VpProofs4.v
theories/VpProperties.v
theories/OrbModel.v
theories/OrbSpec.v
theories/OrbProofs.v
theories/OrbProofs2.v
theories/OrbProperties.v
theories/FrameModel.v
theories/FrameSpec.v
theories/FrameProofs.v
theories/FrameProperties.v
theories/ReplayModel.v
theories/ReplaySpec.v
theories/ReplayProofs.v
theories/ReplayProofs2.v
theories/ReplayProofs3.v
theories/ReplayProperties.v
theories/DriveModel.v
theories/DriveSpec.v
theories/DriveProofs.v
theories/DriveProofs2.v
theories/DriveProofs3.v
theories/DriveProofs4.v
theories/DriveProperties.v
theories/AmpModel.v
theories/AmpSpec.v
theories/AmpProofs.v
theories/AmpProperties.v
theories/AccessModel.v
theories/AccessSpec.v
theories/AccessProofs.v
theories/AccessProofs2.v
theories/AccessProperties.v
theories/PlainModel.v
theories/PlainSpec.v
theories/PlainProofs.v
theories/PlainProofs2.v
theories/PlainProofs3.v
theories/PlainProofs4.v
theories/PlainProperties.v
theories/IsamModel.v
theories/IsamSpec.v
theories/IsamProofs.v
theories/IsamProperties.v
theories/FastRunModel.v
theories/FastRunSpec.v
theories/FastRunProofs.v
theories/FastRunProofs2.v
theories/FastRunProofs3.v
theories/FastRunProofs4.v
theories/FastRunWorld.v
theories/FastRunProperties.v
theories/RbRunModel.v
theories/RbRunSpec.v
theories/RbRunProofs.v
theories/RbRunProofs2.v
theories/RbRunProperties.v
theories/TrackRunModel.v
theories/TrackRunSpec.v
theories/TrackRunProofs.v
theories/TrackRunProofs2.v
theories/TrackRunProperties.v
theories/TrackLifeSpec.v
theories/TrackLifeProofs.v
theories/TrackLifeProofs2.v
theories/TrackLifeProperties.v
theories/RfsProofs6.v
theories/PhdRunModel.v
theories/PhdRunSpec.v
theories/PhdRunProofs.v
theories/PhdRunProofs2.v
theories/PhdRunProofs3.v
theories/PhdRunProofs4.v
theories/PhdRunProofs5.v
theories/PhdRunProofs6.v
theories/PhdRunProperties.v
theories/MemberRunModel.v
theories/MemberRunSpec.v
theories/MemberRunProofs.v
theories/MemberRunProofs2.v
theories/MemberRunProofs3.v
theories/MemberRunProperties.v
theories/ExactModel.v
theories/ExactSpec.v
theories/ExactProofs.v
theories/ExactProofs2.v
theories/ExactProperties.v
theories/ConfigModel.v
theories/ConfigProofs.v
theories/ConfigProperties.v
theories/RfsProofs7.v
theories/RfsProofs8.v
theories/RfsLossProperties.v
theories/PhdOriginSpec.v
theories/PhdRunProofs7.v
theories/PhdOriginProperties.v
theories/TrackOriginSpec.v
theories/TrackOriginProofs.v
theories/TrackOriginProperties.v
theories/TrackCountSpec.v
theories/TrackCountProofs.v
theories/TrackCountProperties.v
