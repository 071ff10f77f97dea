-Q theories Verif
theories/Base.v
theories/ParticlesModel.v
theories/ParticlesSpec.v
theories/ParticlesProofs.v
theories/ParticlesHistory.v
theories/ParticlesProps.v
theories/PdgModel.v
theories/PdgSpec.v
theories/PdgProofs.v
theories/PdgParse.v
theories/PdgStrings.v
theories/PdgMore.v
theories/PdgProps.v
theories/Flt.v
theories/ClockModel.v
theories/ClockProofs.v
theories/ClockSpec.v
theories/ClockMore.v
theories/ClockProps.v
theories/Search.v
theories/TypesModel.v
theories/TypesProofs.v
theories/TypesProps.v
theories/ActionsModel.v
theories/ActionsProofs.v
theories/ActionsProps.v
theories/GridModel.v
theories/GridProofs.v
theories/GridPeriodic.v
theories/GridBuild.v
theories/GridOffers.v
theories/GridPlace.v
theories/GridSpec.v
theories/GridFinal.v
theories/GridMore.v
theories/GridProps.v
theories/LatticeModel.v
theories/LatticeSpec.v
theories/LatticeProofs.v
theories/LatticeMore.v
theories/LatticeGrad.v
theories/LatticeProps.v
theories/ConfigModel.v
theories/ConfigSpec.v
theories/ConfigProofs.v
theories/ConfigTake.v
theories/ConfigMerge.v
theories/ConfigKeys.v
theories/ConfigValid.v
theories/ConfigProps.v
theories/ShaModel.v
theories/ShaSpec.v
theories/ShaProofs.v
theories/ShaProps.v
theories/Bytes.v
theories/TabModel.v
theories/TabProps.v
theories/FilesModel.v
theories/LockProps.v
theories/CacheProps.v
theories/QnModel.v
theories/QnProps.v
theories/EventModel.v
theories/EventProofs.v
theories/PerformProps.v
theories/EventSpec.v
theories/EventLoop.v
theories/EventProps.v
theories/NumModel.v
theories/NumProps.v
theories/VecModel.v
theories/VecProps.v
theories/KinProps.v
theories/MotionModel.v
theories/MotionProps.v
theories/HyperProps.v
theories/FinalProps.v
theories/ColliderProps.v
theories/TextModel.v
theories/TextSpec.v
theories/TextProps.v
theories/TextMore.v
theories/InterpModel.v
theories/InterpProps.v
theories/OutModel.v
theories/OutSpec.v
theories/OutProps.v
theories/StringModel.v
theories/StringSpec.v
theories/StringProps.v
theories/StringExcess.v
theories/StringRestore.v
theories/StringAnnihilate.v
theories/StringColor.v
theories/StringPick.v
theories/StringLead.v
theories/StringKin.v
theories/PsortProps.v
theories/BesselProps.v
theories/PauliProps.v
theories/ListFileProps.v
theories/DecayProps.v
theories/CollideModel.v
theories/CollideProps.v
theories/CollideFind.v
theories/WidthModel.v
theories/WidthProps.v
theories/DecayFindModel.v
theories/DecayFindProps.v
theories/TensorModel.v
theories/TensorProps.v
theories/DileptonModel.v
theories/DileptonProps.v
theories/NucleusModel.v
theories/NucleusProps.v
theories/WoodsSaxon.v
theories/NucleusFile.v
theories/MultiModel.v
theories/MultiProps.v
theories/ThermModel.v
theories/ThermProps.v
theories/XsModel.v
theories/XsProps.v
theories/XsSym.v
theories/XsBal.v
theories/CgModel.v
theories/CgProps.v
theories/CgTable.v
theories/FluidModel.v
theories/FluidProps.v
theories/FluidEnd.v
theories/RunModel.v
theories/RunProps.v
theories/InitModel.v
theories/InitProps.v
theories/DistModel.v
theories/DistProps.v
theories/DistMore.v
theories/PrintfModel.v
theories/PrintfProps.v
theories/OscarModel.v
theories/OscarSpec.v
theories/OscarText.v
theories/OscarProps.v
theories/DensModel.v
theories/DensSpec.v
theories/DensProofs.v
theories/DensProps.v
theories/DensMore.v
theories/PotModel.v
theories/PotProps.v
theories/PotForce.v
theories/PotMom.v
theories/PotMove.v
theories/GeomModel.v
theories/GeomShape.v
theories/GeomNucleus.v
theories/GeomImpact.v
theories/PotGrad.v
theories/ScatModel.v
theories/ScatProps.v
theories/ScatAngle.v
theories/ScatTransfer.v
theories/ScatFinal.v
theories/ScatAction.v
theories/PhotonModel.v
theories/PhotonProps.v
theories/PhotonKin.v
theories/PhotonBrems.v
theories/PhotonWeight.v
theories/PhotonForm.v
theories/HepmcModel.v
theories/HepmcBase.v
theories/HepmcHistory.v
theories/HepmcProps.v
theories/HepmcMore.v
theories/RootModel.v
theories/RootProps.v
theories/IcModel.v
theories/IcProps.v
theories/PhotonMore.v
