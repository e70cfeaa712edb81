-Q theories Verif
theories/Word.v
theories/BigModel.v
theories/BigSpec.v
theories/BigProofs.v
theories/BigProofs2.v
theories/BigProofs3.v
theories/BigProofs4.v
theories/BigProperties.v
theories/IntTextModel.v
theories/IntTextProofs.v
theories/BitsModel.v
theories/BitsProofs.v
theories/BitsProofs2.v
theories/BitsProofs3.v
theories/ExptModel.v
theories/ExptProofs.v
theories/BitsProperties.v
theories/HashModel.v
theories/HashProofs.v
theories/HashProperties.v
theories/PkgModel.v
theories/PkgProofs.v
theories/PkgProofs2.v
theories/PkgProperties.v
theories/ClassModel.v
theories/ClassProofs.v
theories/ClassProofs2.v
theories/ClassProperties.v
theories/ListModel.v
theories/ListProofs.v
theories/ListProperties.v
theories/SeqModel.v
theories/SeqProofs.v
theories/SeqProperties.v
theories/EqualModel.v
theories/EqualProofs.v
theories/EqualProperties.v
theories/VecModel.v
theories/VecProofs.v
theories/VecProperties.v
theories/HeapModel.v
theories/HeapProofs.v
theories/HeapProofs2.v
theories/HeapProofs3.v
theories/HeapProofs4.v
theories/HeapProofs5.v
theories/HeapProofs6.v
theories/HeapProofs7.v
theories/HeapProperties.v
theories/MarkModel.v
theories/MarkProofs.v
theories/MarkProofs2.v
theories/MarkProperties.v
theories/CopyModel.v
theories/CopyProofs.v
theories/CopyProofs2.v
theories/CopyProperties.v
theories/BqModel.v
theories/BqProofs.v
theories/BqProperties.v
theories/ReadModel.v
theories/ReadSpec.v
theories/ReadProofs.v
theories/ReadProofs2.v
theories/ReadProperties.v
theories/StreamModel.v
theories/StreamSpec.v
theories/StreamProofs.v
theories/StreamProperties.v
theories/ControlModel.v
theories/ControlSpec.v
theories/ControlProofs.v
theories/ControlProofs2.v
theories/ControlProofs3.v
theories/ControlProperties.v
theories/ControlFuel.v
theories/KeyModel.v
theories/KeySpec.v
theories/KeyProofs.v
theories/KeyProofs2.v
theories/KeyProofs3.v
theories/KeyProperties.v
theories/LockModel.v
theories/LockProofs.v
theories/PortModel.v
theories/PortProofs.v
theories/LockProperties.v
theories/PoolModel.v
theories/PoolProofs.v
theories/PoolProofs2.v
theories/PoolProofs3.v
theories/PoolProperties.v
theories/RatioModel.v
theories/RatioProofs.v
theories/RatioProofs2.v
theories/RatioProperties.v
theories/BigDivProofs.v
theories/StrModel.v
theories/StrProofs.v
theories/StrProperties.v
theories/PathModel.v
theories/PathProofs.v
theories/PathProperties.v
theories/HexModel.v
theories/HexProofs.v
theories/HexProperties.v
theories/UrlModel.v
theories/UrlProofs.v
theories/UrlProperties.v
theories/Base64Model.v
theories/Base64Proofs.v
theories/Base64Properties.v
theories/MapModel.v
theories/MapProofs.v
theories/MapProperties.v
theories/QsortModel.v
theories/QsortProofs.v
theories/QsortProperties.v
theories/PermModel.v
theories/PermProofs.v
theories/PermProperties.v
theories/CompLang.v
theories/CompModel.v
theories/CompStatic.v
theories/CompProofs.v
theories/CompProperties.v
theories/TimeSpec.v
theories/TimeModel.v
theories/TimeProofs.v
theories/TimeProperties.v
theories/CompEval.v
theories/MacroModel.v
theories/MacroSpec.v
theories/MacroProofs.v
theories/MacroProperties.v
theories/ScopeLang.v
theories/ScopeModel.v
theories/ScopeSpec.v
theories/ScopeProofs.v
theories/ScopeProperties.v
theories/SearchModel.v
theories/SearchSpec.v
theories/SearchProofs.v
theories/SearchProperties.v
theories/RootModel.v
theories/RootSpec.v
theories/RootProofs.v
theories/RootProofs2.v
theories/RootProofs3.v
theories/RootWitness.v
theories/RootProperties.v
theories/MatModel.v
theories/MatSpec.v
theories/MatProofs.v
theories/MatProofs2.v
theories/MatProperties.v
theories/LuModel.v
theories/LuSpec.v
theories/LuProofs.v
theories/LuProofs2.v
theories/LuProofs3.v
theories/LuProperties.v
theories/RotModel.v
theories/RotSpec.v
theories/RotProofs.v
theories/RotProofs2.v
theories/RotProperties.v
theories/CoordModel.v
theories/CoordSpec.v
theories/CoordProofs.v
theories/CoordProofs2.v
theories/CoordProofs3.v
theories/CoordProofs4.v
theories/CoordProofs5.v
theories/CoordProofs6.v
theories/CoordProofs7.v
theories/CoordProofs8.v
theories/CoordProperties.v
theories/VseqModel.v
theories/VseqSpec.v
theories/VseqProofs.v
theories/VseqProofs2.v
theories/VseqProofs3.v
theories/VseqProofs4.v
theories/VseqProperties.v
theories/DdaModel.v
theories/DdaProperties.v
theories/GeoModel.v
theories/GeoSpec.v
theories/GeoProofs.v
theories/GeoProofs2.v
theories/GeoProperties.v
theories/ClipModel.v
theories/ClipProperties.v
theories/BoxModel.v
theories/BoxProperties.v
theories/PolyModel.v
theories/PolySpec.v
theories/PolyProofs.v
theories/PolyProofs2.v
theories/PolyProperties.v
theories/RoundModel.v
theories/RoundSpec.v
theories/RoundProofs.v
theories/RoundProofs2.v
theories/RoundProperties.v
theories/FormatModel.v
theories/FormatSpec.v
theories/FormatProofs.v
theories/FormatProperties.v
theories/QuatModel.v
theories/QuatSpec.v
theories/QuatProofs.v
theories/QuatProperties.v
theories/InfixModel.v
theories/InfixSpec.v
theories/InfixProofs.v
theories/InfixProofs2.v
theories/InfixProperties.v
theories/ObjModel.v
theories/ObjSpec.v
theories/ObjProofs.v
theories/ObjProperties.v
theories/HistModel.v
theories/HistSpec.v
theories/HistProofs.v
theories/HistProperties.v
theories/RpyModel.v
theories/RpySpec.v
theories/RpyProofs.v
theories/RpyProperties.v
theories/HullModel.v
theories/HullSpec.v
theories/HullProofs.v
theories/HullProperties.v
theories/CycModel.v
theories/CycSpec.v
theories/CycProofs.v
theories/CycProperties.v
theories/DfsModel.v
theories/DfsSpec.v
theories/DfsProofs.v
theories/DfsProperties.v
theories/ArgModel.v
theories/ArgSpec.v
theories/ArgProofs.v
theories/ArgProperties.v
theories/CirModel.v
theories/CirSpec.v
theories/CirProofs.v
theories/CirProperties.v
theories/MidModel.v
theories/MidSpec.v
theories/MidProofs.v
theories/MidProperties.v
