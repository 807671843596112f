-Q theories Verif
theories/Base.v
theories/HMatTreeModel.v
theories/HMatTreeSpec.v
theories/HMatTreeProofs.v
theories/HMatBlockProofs.v
theories/HMatTreeProps.v
theories/HMatApplyModel.v
theories/HMatApplySpec.v
theories/HMatApplyProofs.v
theories/HMatApplyProofs2.v
theories/ComplexR.v
theories/HMatNormModel.v
theories/HMatNormProofs.v
theories/HMatApplyProps.v
theories/AcaModel.v
theories/AcaProofs.v
theories/AcaProps.v
theories/BoxModel.v
theories/BoxSpec.v
theories/BoxProofs.v
theories/BoxProps.v
theories/FmmModel.v
theories/FmmSpec.v
theories/FmmProofs.v
theories/FmmTreeProofs.v
theories/FmmGeomModel.v
theories/FmmGeomProofs.v
theories/FmmProps.v
theories/GridModel.v
theories/GridSpec.v
theories/GridProofs.v
theories/GridGeomModel.v
theories/GridGeomProofs.v
theories/GridProps.v
theories/SegModel.v
theories/SegSpec.v
theories/SegProofs.v
theories/SegProps.v
theories/AsmModel.v
theories/AsmSpec.v
theories/ParProofs.v
theories/AsmProofs.v
theories/DofListModel.v
theories/DofListSpec.v
theories/DofListProofs.v
theories/CacheProofs.v
theories/HBlockModel.v
theories/HBlockProofs.v
theories/AsmProps.v
theories/LazyModel.v
theories/LazyProofs.v
theories/LazyProps.v
theories/RangeModel.v
theories/RangeProofs.v
theories/RangeProps.v
theories/InsideModel.v
theories/InsideSpec.v
theories/InsideProofs.v
theories/InsideProps.v
theories/SpaceModel.v
theories/SpaceSpec.v
theories/SpaceProofs.v
theories/SpaceP1Proofs.v
theories/SpaceDP1Proofs.v
theories/SpaceRwgProofs.v
theories/SpaceLinkProofs.v
theories/SpaceProps.v
theories/OperModel.v
theories/OperSpec.v
theories/OperProofs.v
theories/OperProps.v
theories/LocalOpModel.v
theories/LocalOpProofs.v
theories/LocalOpProps.v
theories/DiscCacheModel.v
theories/DiscCacheProofs.v
theories/DiscCacheProps.v
theories/ArrayModel.v
theories/ArraySpec.v
theories/ArrayProofs.v
theories/ArrayProps.v
theories/HermiteModel.v
theories/HermiteProofs.v
theories/HermiteProps.v
theories/QuadModel.v
theories/QuadSpec.v
theories/DuffyProofs.v
theories/DuffyZones.v
theories/TopoProofs.v
theories/QuadProofs.v
theories/QuadSum.v
theories/QuadProps.v
theories/AccModel.v
theories/AccSpec.v
theories/AccProofs.v
theories/AccProps.v
theories/LocalCacheModel.v
theories/LocalCacheSpec.v
theories/LocalCacheProofs.v
theories/LocalCacheProps.v
theories/MatAlg.v
theories/PyOpModel.v
theories/PyOpSpec.v
theories/PyOpProofs.v
theories/PyOpProps.v
theories/PyBlockModel.v
theories/PyBlockSpec.v
theories/PyBlockProofs.v
theories/PyBlockProps.v
theories/PyBopModel.v
theories/PyBopSpec.v
theories/PyBopProofs.v
theories/PyBopProps.v
theories/PyBbopModel.v
theories/PyBbopSpec.v
theories/PyBbopProofs.v
theories/PyBbopHist.v
theories/PyBbopProps.v
theories/LocalCacheProps2.v
theories/PyBbopProps2.v
theories/PyGfModel.v
theories/PyGfSpec.v
theories/PyGfProofs.v
theories/PyGfLists.v
theories/PyGfProps.v
theories/CxRing.v
theories/IntgModel.v
theories/IntgSpec.v
theories/IntgProofs.v
theories/IntgProofs2.v
theories/IntgProofs3.v
theories/IntgProofs4.v
theories/IntgOpModel.v
theories/IntgOpSpec.v
theories/IntgOpProofs.v
theories/IntgOpProofs2.v
theories/IntgProps.v
theories/PolyModel.v
theories/PolySpec.v
theories/PolyProofs1.v
theories/PolyProofs2.v
theories/PolyProofs3.v
theories/PolyProofs4.v
theories/PolyProofs5.v
theories/PolyProofs6.v
theories/PolyProofs7.v
theories/PolyProofs8.v
theories/PolyProps.v
theories/VecModel.v
theories/VecSpec.v
theories/VecProofs.v
theories/VecProofs2.v
theories/VecProofs3.v
theories/VecProofs4.v
theories/VecProps.v
theories/LagModel.v
theories/LagSpec.v
theories/LagProofs.v
theories/LagProofs2.v
theories/LagProofs3.v
theories/LagProofs4.v
theories/LagProps.v
theories/GfIntModel.v
theories/GfIntProps.v
theories/KernModel.v
theories/KernSpec.v
theories/KernProofs.v
theories/KernProofs2.v
theories/KernProofs3.v
theories/KernProofs4.v
theories/KernProofs5.v
theories/KernProofs6.v
theories/KernProps.v
theories/NumIntModel.v
theories/NumIntSpec.v
theories/NumIntProofs.v
theories/NumIntProps.v
theories/GalModel.v
theories/GalSpec.v
theories/GalProofs.v
theories/GalProps.v
theories/FspModel.v
theories/FspSpec.v
theories/FspProofs.v
theories/FspProofs2.v
theories/FspProps.v
theories/BaryModel.v
theories/BarySpec.v
theories/BaryProofs.v
theories/BaryProofs2.v
theories/BaryProofs3.v
theories/BaryProofs4.v
theories/BaryProps.v
theories/BcModel.v
theories/BcSpec.v
theories/BcProofs.v
theories/BcProofs2.v
theories/BcProofs3.v
theories/BcProofs4.v
theories/BcProofs5.v
theories/BcProofs6.v
theories/BcProofs7.v
theories/BcProofs8.v
theories/BcProofs9.v
theories/BcProofs10.v
theories/BcProofs11.v
theories/BcProofs12.v
theories/BcProofs13.v
theories/BcProofs14.v
theories/BcCheck.v
theories/BcProps.v
theories/FileModel.v
theories/FileSpec.v
theories/FileProofs1.v
theories/FileProofs2.v
theories/FileProofs3.v
theories/FileProofs4.v
theories/FileProofs5.v
theories/FileProofs6.v
theories/FileProofs7.v
theories/FileProps.v
theories/SlvModel.v
theories/SlvSpec.v
theories/SlvProofs.v
theories/SlvProps.v
theories/SlvBlkProps.v
theories/PotModel.v
theories/PotSpec.v
theories/PotProofs.v
theories/PotProps.v
theories/PotAsmModel.v
theories/PotAsmSpec.v
theories/PotAsmProofs.v
theories/PotAsmProofs2.v
theories/PotAsmProps.v
theories/RefModel.v
theories/RefSpec.v
theories/RefProofs.v
theories/RefProofs2.v
theories/RefProofs3.v
theories/RefProofs4.v
theories/RefProps.v
theories/SingModel.v
theories/SingSpec.v
theories/SingProofs.v
theories/SingProps.v
theories/ChebModel.v
theories/ChebSpec.v
theories/ChebProofs.v
theories/ChebProps.v
theories/SphModel.v
theories/SphSpec.v
theories/SphProofs.v
theories/SphGeo.v
theories/SphProps.v
theories/EntModel.v
theories/EntSpec.v
theories/EntProps.v
theories/TraceModel.v
theories/TraceSpec.v
theories/TraceProps.v
theories/EdaModel.v
theories/EdaSpec.v
theories/EdaProofs.v
theories/EdaProps.v
theories/UssModel.v
theories/UssSpec.v
theories/UssProps.v
