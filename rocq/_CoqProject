-Q theories Verif
theories/Base.v
theories/BaseProofs.v
theories/BitSetModel.v
theories/BitSetSpec.v
theories/BitSetProofs.v
theories/BitSetProperties.v
theories/SetModel.v
theories/SetSpec.v
theories/SetProofs.v
theories/SetProperties.v
theories/ShapeModel.v
theories/ShapeSpec.v
theories/ShapeProofs.v
theories/ShapeProperties.v
theories/ViewModel.v
theories/ViewSpec.v
theories/ViewProofs.v
theories/ViewProperties.v
theories/AssignModel.v
theories/AssignSpec.v
theories/AssignProofs.v
theories/AssignProperties.v
theories/StorageModel.v
theories/StorageSpec.v
theories/StorageProofs.v
theories/StorageProperties.v
theories/FunctorModel.v
theories/FunctorSpec.v
theories/FunctorProofs.v
theories/FunctorProperties.v
theories/ConstructModel.v
theories/ConstructSpec.v
theories/ConstructProofs.v
theories/ConstructProperties.v
theories/TransposeModel.v
theories/TransposeSpec.v
theories/TransposeProofs.v
theories/TransposeProperties.v
theories/MatmulModel.v
theories/MatmulSpec.v
theories/MatmulProofs.v
theories/MatmulProperties.v
theories/HalfModel.v
theories/HalfSpec.v
theories/HalfBits.v
theories/HalfConvProofs.v
theories/HalfProofs.v
theories/HalfAddProofs.v
theories/HalfSumProofs.v
theories/HalfMulProofs.v
theories/HalfMulAll.v
theories/HalfProperties.v
theories/RoundModel.v
theories/RoundSpec.v
theories/RoundProofs.v
theories/RoundProperties.v
theories/RandomModel.v
theories/RandomSpec.v
theories/RandomProofs.v
theories/RandomProperties.v
theories/DualModel.v
theories/DualSpec.v
theories/DualProofs.v
theories/DualProperties.v
theories/ComplexModel.v
theories/ComplexSpec.v
theories/ComplexProofs.v
theories/ComplexProperties.v
theories/VectorModel.v
theories/VectorSpec.v
theories/VectorProofs.v
theories/VectorProperties.v
theories/SerialModel.v
theories/SerialSpec.v
theories/SerialProofs.v
theories/SerialProperties.v
theories/TimeModel.v
theories/TimeSpec.v
theories/TimeProofs.v
theories/TimeProperties.v
theories/MapModel.v
theories/MapSpec.v
theories/MapProofs.v
theories/MapProperties.v
theories/BlasModel.v
theories/BlasSpec.v
theories/BlasProofs.v
theories/BlasProperties.v
theories/FormatModel.v
theories/FormatSpec.v
theories/FormatProofs.v
theories/FormatProperties.v
theories/OclModel.v
theories/OclSpec.v
theories/OclProofs.v
theories/OclProperties.v
theories/CudaModel.v
theories/CudaSpec.v
theories/CudaProofs.v
theories/CudaProperties.v
theories/DeviceModel.v
theories/DeviceSpec.v
theories/DeviceProofs.v
theories/DeviceProperties.v
theories/MpfModel.v
theories/MpfSpec.v
theories/MpfProofs.v
theories/MpfProperties.v
theories/SelectModel.v
theories/SelectSpec.v
theories/SelectProofs.v
theories/SelectProperties.v
theories/CfunModel.v
theories/CfunSpec.v
theories/CfunProofs.v
theories/CfunProperties.v
theories/FillModel.v
theories/FillSpec.v
theories/FillProofs.v
theories/FillProperties.v
theories/AliasModel.v
theories/AliasSpec.v
theories/AliasProofs.v
theories/AliasProperties.v
theories/LazyModel.v
theories/LazySpec.v
theories/LazyProofs.v
theories/LazyProperties.v
theories/EftModel.v
theories/EftSpec.v
theories/EftProofs.v
theories/EftProperties.v
theories/TriModel.v
theories/TriSpec.v
theories/TriProofs.v
theories/TriProperties.v
theories/SymModel.v
theories/SymSpec.v
theories/SymProofs.v
theories/SymProperties.v
theories/HermModel.v
theories/HermSpec.v
theories/HermProofs.v
theories/HermProperties.v
theories/AccModel.v
theories/AccSpec.v
theories/AccLinear.v
theories/AccProofs.v
theories/AccProperties.v
theories/NumModel.v
theories/NumSpec.v
theories/NumBasics.v
theories/NumSequence.v
theories/NumRandom.v
theories/NumInterp.v
theories/NumSmooth.v
theories/NumComplex.v
theories/NumProperties.v
theories/PackModel.v
theories/PackSpec.v
theories/PackLinear.v
theories/PackSolve.v
theories/PackTri.v
theories/PackProofs.v
theories/PackSym.v
theories/PackRank.v
theories/PackProperties.v
theories/RndModel.v
theories/RndSpec.v
theories/RndProofs.v
theories/RndScale.v
theories/RndLoops.v
theories/RndMod.v
theories/RndEven.v
theories/RndProperties.v
theories/FftSpec.v
theories/FftModel.v
theories/FftProofs.v
theories/FftProperties.v
theories/CrsModel.v
theories/CrsSpec.v
theories/CrsProofs.v
theories/CrsProperties.v
theories/ExtModel.v
theories/ExtSpec.v
theories/ExtProofs.v
theories/ExtTri.v
theories/ExtPack.v
theories/ExtBand.v
theories/ExtProperties.v
theories/HdivModel.v
theories/HdivSpec.v
theories/HdivProofs.v
theories/HdivConv.v
theories/HdivProperties.v
theories/SolModel.v
theories/SolSpec.v
theories/SolRecur.v
theories/SolProofs.v
theories/SolProperties.v
theories/NrmModel.v
theories/NrmSpec.v
theories/NrmProofs.v
theories/NrmFloat.v
theories/NrmProperties.v
theories/BndModel.v
theories/BndSpec.v
theories/BndProofs.v
theories/BndProperties.v
theories/SigModel.v
theories/SigSpec.v
theories/SigProofs.v
theories/SigExp.v
theories/SigProperties.v
theories/MagModel.v
theories/MagProofs.v
theories/MagProperties.v
theories/MpcModel.v
theories/MpcSpec.v
theories/MpcProofs.v
theories/MpcProperties.v
theories/CsqModel.v
theories/CsqSpec.v
theories/CsqError.v
theories/CsqProofs.v
theories/CsqRoot.v
theories/CsqFinal.v
theories/CsqProperties.v
theories/KerModel.v
theories/KerSpec.v
theories/KerProofs.v
theories/KerProperties.v
theories/SclSpec.v
theories/SclProofs.v
theories/SclProperties.v
theories/CacModel.v
theories/CacSpec.v
theories/CacProofs.v
theories/CacProperties.v
theories/LghModel.v
theories/LghSpec.v
theories/LghProofs.v
theories/LghProperties.v
theories/DflModel.v
theories/DflSpec.v
theories/DflProofs.v
theories/DflProperties.v
theories/TnhModel.v
theories/TnhSpec.v
theories/TnhProofs.v
theories/TnhFinal.v
theories/TnhProperties.v
theories/CexModel.v
theories/CexSpec.v
theories/CexProofs.v
theories/CexProperties.v
theories/KnlModel.v
theories/KnlSpec.v
theories/KnlProofs.v
theories/KnlProperties.v
theories/CukModel.v
theories/CukSpec.v
theories/CukProofs.v
theories/CukPlan.v
theories/CukFinal.v
theories/CukProperties.v
theories/TrlModel.v
theories/TrlSpec.v
theories/TrlProofs.v
theories/TrlProperties.v
theories/CblModel.v
theories/CblSpec.v
theories/CblProofs.v
theories/CblProperties.v
theories/GauModel.v
theories/GauSpec.v
theories/GauProofs.v
theories/GauProperties.v
theories/GrtModel.v
theories/GrtSpec.v
theories/GrtProofs.v
theories/GrtProperties.v
theories/FadModel.v
theories/FadSpec.v
theories/FadProofs.v
theories/FadProperties.v
theories/FspModel.v
theories/FspSpec.v
theories/FspProofs.v
theories/FstProofs.v
theories/FspProperties.v
