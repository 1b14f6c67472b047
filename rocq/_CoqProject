-Q theories Verif
theories/Util.v
theories/IoBufModel.v
theories/IoBufSpec.v
theories/IoBufProof.v
theories/IoBufProps.v
theories/RingBufferModel.v
theories/RingBufferSpec.v
theories/RingBufferProof.v
theories/RingBufferProps.v
theories/SegmentPoolModel.v
theories/SegmentPoolSpec.v
theories/SegmentPoolProof.v
theories/SegmentPoolProps.v
theories/FlitModel.v
theories/FlitProof.v
theories/FlitProps.v
theories/UrlModel.v
theories/UrlSpec.v
theories/UrlProof.v
theories/UrlProps.v
theories/SlidingModel.v
theories/SlidingSpec.v
theories/SlidingProof.v
theories/SlidingProps.v
theories/IoStreamModel.v
theories/IoStreamSpec.v
theories/IoStreamProof.v
theories/IoStreamProps.v
theories/Conc.v
theories/SpscModel.v
theories/SpscSpec.v
theories/SpscProof.v
theories/SpscProps.v
theories/MpmcModel.v
theories/MpmcSpec.v
theories/MpmcProof.v
theories/MpmcProps.v
theories/MpscModel.v
theories/MpscSpec.v
theories/MpscProof.v
theories/MpscProps.v
theories/EcModel.v
theories/EcProof.v
theories/EcWake.v
theories/AwaitModel.v
theories/AwaitProof.v
theories/AwaitSpec.v
theories/AwaitProps.v
theories/CounterSpec.v
theories/CounterModel.v
theories/CounterProof.v
theories/CounterProps.v
theories/DoneModel.v
theories/DoneProof.v
theories/DoneProps.v
theories/EcLoc.v
theories/SharedModel.v
theories/SharedSpec.v
theories/SharedProof.v
theories/SharedProps.v
theories/MonModel.v
theories/MonSpec.v
theories/MonProof.v
theories/MonWake.v
theories/MonProps.v
theories/BarrierModel.v
theories/BarrierSpec.v
theories/MonLoc.v
theories/BarrierProof.v
theories/BarrierProps.v
theories/LineModel.v
theories/LineSpec.v
theories/LineProof.v
theories/LineProps.v
theories/IniModel.v
theories/IniSpec.v
theories/IniProof.v
theories/IniProps.v
theories/ProcModel.v
theories/ProcSpec.v
theories/ProcProof.v
theories/ProcProps.v
theories/FileModel.v
theories/FileSpec.v
theories/FileProof.v
theories/FileProps.v
theories/EcEff.v
theories/ChannelModel.v
theories/ChannelSpec.v
theories/ChannelProof.v
theories/ChannelWake.v
theories/ChannelPop.v
theories/ChannelDead.v
theories/ChannelProps.v
theories/FqModel.v
theories/FqSpec.v
theories/FqProof.v
theories/FqProps.v
theories/WakeModel.v
theories/WakeSpec.v
theories/WakeProof.v
theories/WakeProps.v
theories/JoinModel.v
theories/JoinSpec.v
theories/JoinProof.v
theories/JoinProps.v
theories/IdleModel.v
theories/IdleSpec.v
theories/IdleProof.v
theories/IdleProps.v
theories/RingCbModel.v
theories/RingCbSpec.v
theories/RingCbProof.v
theories/RingCbProps.v
theories/FdTabModel.v
theories/FdTabSpec.v
theories/FdTabProof.v
theories/FdTabProps.v
theories/EpollCbModel.v
theories/EpollCbSpec.v
theories/EpollCbProof.v
theories/EpollCbProps.v
theories/PeriodicModel.v
theories/PeriodicSpec.v
theories/PeriodicProof.v
theories/PeriodicProps.v
theories/ListenerModel.v
theories/ListenerSpec.v
theories/ListenerProof.v
theories/ListenerProps.v
theories/HistModel.v
theories/HistSpec.v
theories/HistProof.v
theories/HistProps.v
theories/PodModel.v
theories/PodSpec.v
theories/PodProof.v
theories/PodProps.v
theories/ArenaModel.v
theories/ArenaSpec.v
theories/ArenaProof.v
theories/ArenaProps.v
theories/SsoModel.v
theories/SsoSpec.v
theories/SsoProof.v
theories/SsoProps.v
theories/ZstdModel.v
theories/ZstdSpec.v
theories/ZstdProof.v
theories/ZstdProps.v
theories/CuckooModel.v
theories/CuckooSpec.v
theories/CuckooProof.v
theories/CuckooProps.v
theories/RespModel.v
theories/RespSpec.v
theories/RespProof.v
theories/RespProps.v
theories/MetricsModel.v
theories/MetricsSpec.v
theories/MetricsProof.v
theories/MetricsProps.v
theories/HumanModel.v
theories/HumanSpec.v
theories/HumanProof.v
theories/HumanProps.v
theories/SchedModel.v
theories/SchedSpec.v
theories/SchedProof.v
theories/SchedProps.v
theories/CompactModel.v
theories/CompactSpec.v
theories/CompactProof.v
theories/CompactProps.v
theories/UploadModel.v
theories/UploadSpec.v
theories/UploadProof.v
theories/UploadProps.v
theories/SenderModel.v
theories/SenderSpec.v
theories/SenderProof.v
theories/SenderProps.v
theories/ReaderModel.v
theories/ReaderSpec.v
theories/ReaderProof.v
theories/ReaderProps.v
theories/TlsModel.v
theories/TlsSpec.v
theories/TlsProof.v
theories/TlsProps.v
theories/TlsAsyncModel.v
theories/TlsAsyncSpec.v
theories/TlsAsyncProof.v
theories/TlsAsyncProps.v
theories/EsockModel.v
theories/EsockSpec.v
theories/EsockProof.v
theories/EsockHook.v
theories/EsockProps.v
theories/UpollModel.v
theories/UpollSpec.v
theories/UpollProof.v
theories/UpollProps.v
theories/BufRingModel.v
theories/BufRingSpec.v
theories/BufRingProof.v
theories/BufRingProps.v
theories/ErrCbModel.v
theories/ErrCbSpec.v
theories/ErrCbProof.v
theories/ErrCbProps.v
theories/RwSpinModel.v
theories/RwSpinSpec.v
theories/RwSpinProof.v
theories/RwSpinProps.v
theories/PoolModel.v
theories/PoolSpec.v
theories/PoolProof.v
theories/PoolProps.v
theories/InternModel.v
theories/InternProps.v
theories/FibFileModel.v
theories/FibFileSpec.v
theories/FibFileProof.v
theories/FibFileProps.v
theories/DnsModel.v
theories/DnsProps.v
theories/CloudListModel.v
theories/CloudListSpec.v
theories/CloudListProof.v
theories/CloudListProps.v
theories/LibdivModel.v
theories/LibdivProof.v
theories/LibdivSpec.v
theories/LibdivBucket.v
theories/LibdivProps.v
theories/USockModel.v
theories/USockSpec.v
theories/USockProof.v
theories/USockProps.v
theories/UFileModel.v
theories/UFileSpec.v
theories/UFileProof.v
theories/UFileProps.v
theories/SignModel.v
theories/SignSpec.v
theories/SignProof.v
theories/SignProps.v
theories/CredSpec.v
theories/CredModel.v
theories/CredProof.v
theories/CredProps.v
theories/CfgSpec.v
theories/CfgModel.v
theories/CfgProof.v
theories/CfgProps.v
theories/LogSpec.v
theories/LogModel.v
theories/LogProof.v
theories/LogProps.v
theories/HttpdSpec.v
theories/HttpdModel.v
theories/HttpdProof.v
theories/HttpdProps.v
theories/AzSpec.v
theories/AzModel.v
theories/AzProof.v
theories/AzProps.v
theories/SrvModel.v
theories/SrvSpec.v
theories/SrvProof.v
theories/SrvProps.v
theories/VarzModel.v
theories/VarzSpec.v
theories/VarzProof.v
theories/VarzProps.v
theories/RngModel.v
theories/RngSpec.v
theories/RngProof.v
theories/RngPrime.v
theories/RngPeriod.v
theories/RngProps.v
theories/MurModel.v
theories/MurSpec.v
theories/MurProof.v
theories/MurProps.v
