-Q theories Verif
theories/UtilModel.v
theories/UtilSpec.v
theories/UtilProofs.v
theories/UtilProofs2.v
theories/UtilProps.v
theories/PidModel.v
theories/PidProofs.v
theories/PidProps.v
theories/RationalModel.v
theories/RationalSpec.v
theories/RationalProofs.v
theories/RationalProps.v
theories/PermModel.v
theories/PermSpec.v
theories/PermProofs.v
theories/PermProofs2.v
theories/PermProofs3.v
theories/PermProofs4.v
theories/PermProps.v
theories/LinModel.v
theories/LinSpec.v
theories/LinProofs.v
theories/LinProofs2.v
theories/LinProofs3.v
theories/LinProps.v
theories/ViewModel.v
theories/ViewSpec.v
theories/ViewProofs.v
theories/ViewProps.v
theories/MatModel.v
theories/MatSpec.v
theories/MatProofs.v
theories/MatProofs2.v
theories/MatProps.v
theories/SnfModel.v
theories/SnfProofs.v
theories/SnfProofs2.v
theories/SnfProofs3.v
theories/SnfProps.v
theories/SparseModel.v
theories/SparseSpec.v
theories/SparseProofs.v
theories/SparseProofs2.v
theories/SparseProps.v
theories/RankModel.v
theories/RankSpec.v
theories/RankProofs.v
theories/RankProps.v
theories/LuModel.v
theories/LuSpec.v
theories/LuProofs.v
theories/LuProofs2.v
theories/LuProofs3.v
theories/LuProps.v
theories/NumModel.v
theories/NumSpec.v
theories/NumProofs.v
theories/GsProofs.v
theories/GsProps.v
theories/HouseProofs.v
theories/HouseProps.v
theories/LllProofs.v
theories/LllProofs2.v
theories/LllProofs3.v
theories/LllProps.v
theories/HessProofs.v
theories/HessProps.v
theories/FrancisModel.v
theories/FrancisSpec.v
theories/FrancisProofs.v
theories/FrancisProps.v
theories/EigProofs.v
theories/QrProofs.v
theories/QrProps.v
theories/SpectrumProps.v
theories/TriModel.v
theories/TriSpec.v
theories/TriProofs.v
theories/TriProps.v
theories/WilkModel.v
theories/WilkSpec.v
theories/WilkProofs.v
theories/WilkProps.v
theories/SymQrSpec.v
theories/SymQrProofs.v
theories/SymQrProofs2.v
theories/SymQrProofs3.v
theories/SymQrProofs4.v
theories/SymQrProofs5.v
theories/SymQrProofs6.v
theories/SymQrProps.v
theories/RandModel.v
theories/RandProofs.v
theories/RandProps.v
theories/InvIterModel.v
theories/InvIterSpec.v
theories/InvIterProofs.v
theories/InvIterProps.v
theories/HomModel.v
theories/HomSpec.v
theories/HomProofs.v
theories/HomProofs2.v
theories/HomProofs3.v
theories/HomProofs4.v
theories/HomProps.v
theories/ConstModel.v
theories/ConstSpec.v
theories/ConstProofs.v
theories/ConstProps.v
theories/SimpModel.v
theories/SimpSpec.v
theories/SimpProofs.v
theories/SimpProofs2.v
theories/SimpProofs3.v
theories/SimpProofs4.v
theories/SimpProofs5.v
theories/SimpProofs6.v
theories/SimpProps.v
theories/SimpProofs7.v
theories/SimpProofs8.v
theories/SimpProofs9.v
theories/SimpCountProps.v
theories/GraphModel.v
theories/GraphSpec.v
theories/GraphProofs.v
theories/GraphProofs2.v
theories/GraphProofs3.v
theories/GraphProofs4.v
theories/GraphProofs5.v
theories/GraphProofs6.v
theories/GraphProofs7.v
theories/GraphProofs8.v
theories/GraphProps.v
theories/LabGraphModel.v
theories/LabGraphSpec.v
theories/LabGraphProofs.v
theories/LabGraphProofs2.v
theories/LabGraphProps.v
theories/SubdivSpec.v
theories/SubdivProofs.v
theories/SubdivProofs2.v
theories/SubdivProps.v
theories/EdgePathModel.v
theories/EdgePathSpec.v
theories/EdgePathProofs.v
theories/EdgePathProofs2.v
theories/EdgePathProofs3.v
theories/EdgePathProofs4.v
theories/EdgePathProofs5.v
theories/EdgePathProps.v
theories/CubeModel.v
theories/CubeSpec.v
theories/CubeProofs.v
theories/CubeProofs2.v
theories/CubeProofs3.v
theories/CubeProps.v
theories/CubeProofs4.v
theories/CubeProofs5.v
theories/CubePartialModel.v
theories/CubeProofs6.v
theories/CubeProofs7.v
theories/CubeProps2.v
theories/AnaModel.v
theories/AnaSpec.v
theories/AnaProofs.v
theories/AnaProofs2.v
theories/AnaProofs3.v
theories/AnaProofs4.v
theories/AnaProps.v
theories/GeomModel.v
theories/GeomSpec.v
theories/GeomProofs.v
theories/GeomProofs2.v
theories/GeomProofs3.v
theories/GeomProofs4.v
theories/GeomProofs5.v
theories/GeomProofs6.v
theories/GeomProofs7.v
theories/GeomProofs8.v
theories/GeomProps.v
theories/MorseModel.v
theories/MorseSpec.v
theories/MorseProofs.v
theories/MorseProofs2.v
theories/MorseProofs3.v
theories/MorseProofs4.v
theories/MorseProofs5.v
theories/MorseProofs6.v
theories/MorseProps.v
theories/MorseCplxModel.v
theories/MorseCplxSpec.v
theories/MorseCplxProofs.v
theories/MorseCplxProofs2.v
theories/MorseCplxProofs3.v
theories/MorseCplxProofs4.v
theories/MorseCplxProps.v
theories/MorseCplxProofs5.v
theories/MorseCplxProofs6.v
theories/MorseCplxProofs7.v
theories/MorseCplxProofs8.v
theories/MorseCplxProofs9.v
theories/MorseCplxProofs10.v
theories/MorseCplxProps2.v
theories/MorseCplxProofs11.v
theories/MorseCplxProps3.v
theories/MvModel.v
theories/MvProofs.v
theories/MvProps.v
theories/EmbedModel.v
theories/EmbedSpec.v
theories/EmbedProps.v
theories/EulerProps.v
theories/LaplaceProps.v
theories/CompSpec.v
theories/CompProofs.v
theories/CompProps.v
theories/ShowModel.v
theories/ShowProofs.v
theories/ShowProofs2.v
theories/ShowProofs3.v
theories/ShowSpec.v
theories/ShowProofs4.v
theories/ShowProps.v
theories/FloatModel.v
theories/FloatSpec.v
theories/FloatProofs.v
theories/FloatProofs2.v
theories/FloatProofs3.v
theories/FloatProofs4.v
theories/FloatProofs5.v
theories/FloatProps.v
theories/GeomFloatModel.v
theories/GeomFloatProofs.v
theories/GeomFloatProofs2.v
theories/GeomFloatProofs3.v
theories/GeomFloatProps.v
theories/GalSpec.v
theories/GalProofs.v
theories/GalProofs2.v
theories/GalProofs3.v
theories/GalProofs4.v
theories/GalProofs5.v
theories/GalProps.v
theories/GalProps2.v
theories/ConfConnProps.v
theories/ShowModel2.v
theories/ShowSpec2.v
theories/ShowProofs5.v
theories/ShowProps2.v
theories/ShowProps3.v
theories/HeapModel.v
theories/HeapSpec.v
theories/HeapProofs.v
theories/HeapProofs2.v
theories/HeapProofs3.v
theories/HeapProofs4.v
theories/HeapProofs5.v
theories/HeapProofs6.v
theories/HeapProofs7.v
theories/HeapProps.v
theories/SimpProofs10.v
theories/SnfChkModel.v
theories/SnfChkProofs.v
theories/SnfChkProofs2.v
theories/SnfChkProps.v
theories/FvecSpec.v
theories/FvecProofs.v
theories/FvecProps.v
theories/FvecProofs2.v
theories/FvecProps2.v
theories/BettiProps.v
theories/SnfGraphProofs.v
theories/SnfGraphProofs2.v
theories/SnfGraphProofs3.v
theories/SnfGraphProofs4.v
theories/SnfGraphProps.v
theories/SnfGraphProps2.v
theories/IsoSpec.v
theories/IsoProofs.v
theories/IsoProofs2.v
theories/IsoProofs3.v
theories/IsoProofs4.v
theories/IsoProofs5.v
theories/IsoProps.v
theories/ConeSpec.v
theories/ConeProofs.v
theories/ConeProps.v
theories/SphereProofs.v
theories/SphereProps.v
theories/CollapseSpec.v
theories/CollapseProofs.v
theories/CollapseProofs2.v
theories/CollapseProps.v
theories/AnaShowModel.v
theories/AnaShowSpec.v
theories/AnaShowProofs.v
theories/AnaShowProofs2.v
theories/AnaShowProps.v
theories/UnionSpec.v
theories/UnionProofs.v
theories/UnionProofs2.v
theories/UnionProps.v
theories/NormFloatModel.v
theories/NormFloatProofs.v
theories/NormFloatProps.v
theories/RatFloatModel.v
theories/RatFloatProps.v
theories/LapFloatProps.v
theories/SparseFloatProofs.v
theories/SparseFloatProps.v
theories/IntFloatProps.v
theories/GramFloatProps.v
theories/DomLuProps.v
theories/LeastSqProps.v
theories/BandLuProps.v
theories/SylvProps.v
theories/DetLawProps.v
theories/DetMulProps.v
theories/CramerProps.v
theories/SolveLawProps.v
theories/GroundProps.v
