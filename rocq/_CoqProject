-Q theories Verif
theories/Util.v
theories/CombModel.v
theories/CombSpec.v
theories/CombProofs.v
theories/CombProps.v
theories/SimpModel.v
theories/SimpSpec.v
theories/ParProofs.v
theories/SimpProofs.v
theories/LevelProofs.v
theories/TopProofs.v
theories/SimpProps.v
theories/BdryModel.v
theories/BdrySpec.v
theories/OrientProofs.v
theories/FixProofs.v
theories/SubProofs.v
theories/BdryProofs.v
theories/SelProofs.v
theories/BdryProps.v
theories/SelProps.v
theories/DualProofs.v
theories/DualProps.v
theories/AvgModel.v
theories/AvgProofs.v
theories/AvgProps.v
theories/Arr.v
theories/StModel.v
theories/GenProofs.v
theories/StProofs.v
theories/TransferProofs.v
theories/StProps.v
theories/OpModel.v
theories/OpSpec.v
theories/OpProofs.v
theories/TrProofs.v
theories/OpProps.v
theories/BlkModel.v
theories/BlkSpec.v
theories/BlkProofs.v
theories/CanProofs.v
theories/DiagProofs.v
theories/LocProofs.v
theories/DenseProofs.v
theories/BlkProps.v
theories/MgModel.v
theories/MgSpec.v
theories/TypProofs.v
theories/SmProofs.v
theories/CoarsenProofs.v
theories/SysProofs.v
theories/CycleProofs.v
theories/DfProofs.v
theories/MgProps.v
theories/SubdModel.v
theories/SubdSpec.v
theories/FundProofs.v
theories/BaryProofs.v
theories/BarySub.v
theories/InsProofs.v
theories/LoopProofs.v
theories/LoopTransfer.v
theories/DirectProofs.v
theories/SubdProps.v
theories/CubeModel.v
theories/CubeSpec.v
theories/CubeBits.v
theories/CubeBd.v
theories/CubeRel.v
theories/CubeLevel.v
theories/CubeTop.v
theories/CubeChain.v
theories/CubeProd.v
theories/CubeGrid.v
theories/CubeProps.v
theories/BarrModel.v
theories/BarrSpec.v
theories/BarrProofs.v
theories/BarrProps.v
theories/LinModel.v
theories/Ofield.v
theories/LinProps.v
theories/RotModel.v
theories/RotProps.v
theories/TriModel.v
theories/TriSpec.v
theories/TriProofs.v
theories/TriMesh.v
theories/TriExtrude.v
theories/TriSolid.v
theories/TriProps.v
theories/ClipSpec.v
theories/ClipProofs.v
theories/ClipOrient.v
theories/ClipGeom.v
theories/ClipProps.v
theories/CgModel.v
theories/CgSpec.v
theories/CgProofs.v
theories/CgConj.v
theories/CgProps.v
theories/SampModel.v
theories/SampSpec.v
theories/SampProofs.v
theories/SampBox.v
theories/SampProps.v
theories/PickProofs.v
theories/PickProps.v
theories/GenOrient.v
theories/COrModel.v
theories/COrSpec.v
theories/COrProofs.v
theories/COrProps.v
theories/CSubProofs.v
theories/CBdProofs.v
theories/CBdProps.v
theories/CDomModel.v
theories/CDomBits.v
theories/CDomProofs.v
theories/CDomTop.v
theories/CDomSub.v
theories/CDomOrient.v
theories/CDomSpec.v
theories/CDomTrans.v
theories/CDomPairs.v
theories/CDomInherit.v
theories/CDomProps.v
theories/CAvgSpec.v
theories/CAvgProofs.v
theories/CAvgProps.v
theories/SmoModel.v
theories/SmoSpec.v
theories/SmoProofs.v
theories/SmoProps.v
theories/QuadModel.v
theories/QuadSpec.v
theories/QuadProofs.v
theories/QuadTri.v
theories/QuadProps.v
theories/QuadCut.v
theories/QuadTet.v
theories/QuadProps2.v
theories/GeoModel.v
theories/GeoSpec.v
theories/GeoRing.v
theories/GeoProofs.v
theories/GeoProps.v
theories/CircModel.v
theories/CircSpec.v
theories/CircProofs.v
theories/Spectral.v
theories/CircProps.v
theories/NormModel.v
theories/NormSpec.v
theories/NormProofs.v
theories/Svd.v
theories/NormProps.v
theories/SurfModel.v
theories/SurfSpec.v
theories/SurfProofs.v
theories/SurfProps.v
theories/MetModel.v
theories/MetSpec.v
theories/MetAff.v
theories/MetSum.v
theories/MetProofs.v
theories/MetVol.v
theories/MetCot.v
theories/MetEdge.v
theories/MetWit.v
theories/MetProps.v
theories/DelModel.v
theories/DelSpec.v
theories/DelProofs.v
theories/DelFree.v
theories/DelGeo.v
theories/DelPos.v
theories/DelProps.v
theories/TreeModel.v
theories/TreeSpec.v
theories/TreeProofs.v
theories/TreeSel.v
theories/TreeTop.v
theories/TreeGeo.v
theories/TreeMain.v
theories/TreeProps.v
theories/CompModel.v
theories/CompSpec.v
theories/CompWalk.v
theories/CompProofs.v
theories/CompProps.v
theories/SphModel.v
theories/SphSpec.v
theories/SphProofs.v
theories/SphProps.v
theories/SMetModel.v
theories/SMetSpec.v
theories/SMetProofs.v
theories/SMetProps.v
theories/STrModel.v
theories/STrSpec.v
theories/STrProofs.v
theories/STrProps.v
theories/RMetModel.v
theories/RMetSpec.v
theories/RMetProofs.v
theories/RMetSums.v
theories/RMetMain.v
theories/RMetProps.v
theories/VelModel.v
theories/VelSpec.v
theories/VelProofs.v
theories/VelProps.v
theories/VelNum.v
theories/WavModel.v
theories/WavProofs.v
theories/WavProps.v
theories/WavFan.v
theories/FSampModel.v
theories/FSampProps.v
theories/RegSModel.v
theories/RegSProps.v
theories/MinModel.v
theories/MinSpec.v
theories/MinProofs.v
theories/MinProps.v
