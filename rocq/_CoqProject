-Q theories Verif
theories/Base.v
theories/Lists.v
theories/Vec3.v
theories/ContactModel.v
theories/LayoutModel.v
theories/LayoutSpec.v
theories/LayoutProofs.v
theories/PropLayout.v
theories/FillModel.v
theories/SolverModel.v
theories/FillSpec.v
theories/FillProofs.v
theories/QCProofs.v
theories/DepsProofs.v
theories/BackendProofs.v
theories/SolverSpec.v
theories/HistoryProofs.v
theories/DiagSolver.v
theories/FillFacts.v
theories/PropFill.v
theories/UtilsModel.v
theories/SolverFacts.v
theories/PropSolver.v
theories/ContactSpec.v
theories/ContactProofs.v
theories/ConeProofs.v
theories/PropContacts.v
theories/JacModel.v
theories/JacProofs.v
theories/ContactConstrModel.v
theories/OrdMapProofs.v
theories/RigidProofs.v
theories/ContactConstrSpec.v
theories/ContactConstrProofs.v
theories/ContactGetter.v
theories/ContactRowsProofs.v
theories/ContactLinesProofs.v
theories/ContactFacts.v
theories/PropContactConstr.v
theories/MotionModel.v
theories/MotionSpec.v
theories/MotionProofs.v
theories/MotionLimits.v
theories/MotionFacts.v
theories/MotionWitness.v
theories/PropMotion.v
theories/LimitsModel.v
theories/LimitsSpec.v
theories/LimitsProofs.v
theories/DamperProofs.v
theories/DamperLoop.v
theories/LimitsWitness.v
theories/PropLimits.v
theories/CollisionModel.v
theories/CollisionSpec.v
theories/CollisionProofs.v
theories/CollisionRows.v
theories/CollisionRun.v
theories/CollisionFacts.v
theories/CollisionLoop.v
theories/CollisionWitness.v
theories/PropCollision.v
theories/PlaneModel.v
theories/PlaneSpec.v
theories/PlaneProofs.v
theories/PlaneRun.v
theories/PlaneFacts.v
theories/PlaneWitness.v
theories/PropPlane.v
theories/GripperModel.v
theories/GripperSpec.v
theories/GripperFacts.v
theories/GripperWitness.v
theories/PropGripper.v
theories/SpeedModel.v
theories/SpeedSpec.v
theories/SpeedFacts.v
theories/SpeedWitness.v
theories/PropSpeed.v
theories/ImageModel.v
theories/ImageSpec.v
theories/ImageFacts.v
theories/ImageWitness.v
theories/PropImage.v
theories/SetPointModel.v
theories/SetPointSpec.v
theories/SetPointFacts.v
theories/SetPointLoop.v
theories/SetPointTarget.v
theories/SetPointWitness.v
theories/PropSetPoint.v
theories/SelectorModel.v
theories/SelectorSpec.v
theories/SelectorFacts.v
theories/PropSelector.v
theories/PostureModel.v
theories/PostureSpec.v
theories/PostureFacts.v
theories/PostureLoop.v
theories/PostureWitness.v
theories/PropPosture.v
theories/TorqueModel.v
theories/TorqueFacts.v
theories/TorqueWitness.v
theories/PropTorque.v
theories/ForceTaskModel.v
theories/ForceTaskFacts.v
theories/ForceTaskWitness.v
theories/PropForceTask.v
theories/MultiModel.v
theories/MultiFacts.v
theories/MultiWitness.v
theories/PropMulti.v
theories/Deriv.v
theories/KinModel.v
theories/KinSpec.v
theories/KinFacts.v
theories/KinTaskFacts.v
theories/KinVecFacts.v
theories/KinMultiModel.v
theories/KinMultiFacts.v
theories/KinDistFacts.v
theories/TreeModel.v
theories/TreeSpec.v
theories/TreeFacts.v
theories/KinWitness.v
theories/DistWitness.v
theories/TreeWitness.v
theories/KinAxis.v
theories/PropKin.v
theories/KinLoop.v
theories/TfLoopWitness.v
theories/PropLoop.v
theories/VisModel.v
theories/VisSpec.v
theories/VisFacts.v
theories/VisWitness.v
theories/PropVis.v
theories/TrackModel.v
theories/TrackSpec.v
theories/TrackFacts.v
theories/TrackWitness.v
theories/PropTrack.v
theories/ComModel.v
theories/ComSpec.v
theories/ComFacts.v
theories/ComMultiFacts.v
theories/ComWitness.v
theories/PropCom.v
theories/MomModel.v
theories/MomSpec.v
theories/MomFacts.v
theories/MomParts.v
theories/MomWitness.v
theories/PropMom.v
theories/CycleSpec.v
theories/CycleFacts.v
theories/TorqueCycleSpec.v
theories/TorqueCycle.v
theories/TrySolver.v
theories/CycleWitness.v
theories/CycleWitness2.v
theories/PropCycle.v
theories/ContactLoopSpec.v
theories/ContactFrames.v
theories/ContactEnergy.v
theories/ContactLoop.v
theories/ContactLoopWitness.v
theories/PropContactLoop.v
theories/DotModel.v
theories/DotSpec.v
theories/DotFacts.v
theories/DotBodies.v
theories/DotWitness.v
theories/GazeModel.v
theories/GazeFacts.v
theories/PropDot.v
theories/BalanceSpec.v
theories/BalanceFacts.v
theories/BalanceWitness.v
theories/SolvedLoopSpec.v
theories/SolvedLoop.v
theories/SolvedLoopWitness.v
theories/PropBalance.v
theories/CompatSpec.v
theories/CompatFacts.v
theories/CompatWitness.v
theories/CompatLoop.v
theories/ShareWitness.v
theories/OrderWitness.v
theories/PropCompat.v
theories/DiscreteSpec.v
theories/DiscreteFacts.v
theories/DiscreteWitness.v
theories/PropDiscrete.v
theories/EnergySpec.v
theories/EnergyFacts.v
theories/EnergyWitness.v
theories/PropEnergy.v
theories/VecLoopSpec.v
theories/VecLoopFacts.v
theories/VecLoop.v
theories/VecLoopWitness.v
theories/PropVecLoop.v
theories/OriLoopSpec.v
theories/OriLoopFacts.v
theories/OriLoop.v
theories/OriLoopWitness.v
theories/PropOriLoop.v
theories/ErrorModel.v
theories/ErrorSpec.v
theories/ErrorFacts.v
theories/ErrorWitness.v
theories/PropError.v
theories/PoseLoopSpec.v
theories/PoseLoop.v
theories/PoseLoopWitness.v
theories/PropPoseLoop.v
theories/TurnGen.v
theories/SurfLoopSpec.v
theories/SurfLoopFacts.v
theories/SurfLoop.v
theories/SurfLoopWitness.v
theories/PropSurfLoop.v
theories/KinDistLater.v
theories/PropDistLater.v
theories/SelectorCost.v
