-Q theories Verif
theories/Base.v
theories/Crc.v
theories/Flash.v
theories/Cache.v
theories/State.v
theories/Item.v
theories/Generic.v
theories/Queue.v
theories/Map.v
theories/Buffered.v
theories/Shared.v
theories/Codec.v
theories/Config.v
theories/BaseP.v
theories/CodecP.v
theories/Utf8P.v
theories/RingP.v
theories/CrcP.v
theories/PropsBasic.v
theories/GeomP.v
theories/ScanP.v
theories/WpP.v
theories/ItemP.v
theories/CalcP.v
theories/PageP.v
theories/TornSpec.v
theories/TornP.v
theories/WorldP.v
theories/LayP.v
theories/QPushP.v
theories/QRepP.v
theories/QIterP.v
theories/QNextP.v
theories/QStepP.v
theories/Client.v
theories/QSpec.v
theories/QMiscP.v
theories/QCallP.v
theories/QHistP.v
theories/QObs.v
theories/QPropsP.v
theories/CapSpec.v
theories/QCapP.v
theories/QSpaceP.v
theories/QCase.v
theories/PropsQueue.v
theories/KeyP.v
theories/MLogP.v
theories/MFetchP.v
theories/MMigP.v
theories/MStoreP.v
theories/MCallP.v
theories/MTornP.v
theories/MRemP.v
theories/MRmvP.v
theories/MIterP.v
theories/MClient.v
theories/MSpec.v
theories/MExecP.v
theories/MHistP.v
theories/MTornHistP.v
theories/MTwinP.v
theories/MObs.v
theories/MWearP.v
theories/MPropsP.v
theories/QuietP.v
theories/MTornObs.v
theories/MTornPropsP.v
theories/MCacheP.v
theories/MRmCutP.v
theories/MCase.v
theories/PropsMap.v
theories/PropsTorn.v
theories/TMap.v
theories/TMapP.v
theories/TObs.v
theories/TPropsP.v
theories/PropsTyped.v
theories/ConfigP.v
theories/KeySpecP.v
theories/CalcHistP.v
theories/ItemSpecP.v
theories/PropsMisc.v
theories/BSpec.v
theories/BufP.v
theories/SharedP.v
theories/SharedCallP.v
theories/PropsBuf.v
theories/PropsShared.v
theories/EraseP.v
theories/PropsErase.v
theories/SafeSpec.v
theories/NoiseP.v
theories/SafeP.v
theories/SafeQP.v
theories/SafeMP.v
theories/SafeRunP.v
theories/PropsSafe.v
theories/NoiseSpec.v
theories/NoiseRunP.v
theories/PropsNoise.v
theories/HurtSpec.v
theories/HurtP.v
theories/HurtMP.v
theories/BitsP.v
theories/SlightP.v
theories/HurtCase.v
theories/PropsHurt.v
theories/MCapP.v
theories/PropsCap.v
theories/WearSpec.v
theories/QWearP.v
theories/MReadP.v
theories/MAmoP.v
theories/PropsWear.v
theories/FormatSpec.v
theories/FormatP.v
theories/ImageP.v
theories/PropsFormat.v
theories/ProgP.v
theories/Reads.v
theories/ReadsP.v
theories/ReadsCase.v
theories/PropsReads.v
theories/Drops.v
theories/DropP.v
theories/DropQP.v
theories/AeP.v
theories/DropMP.v
theories/BDrops.v
theories/DropBP.v
theories/SDrops.v
theories/SDropP.v
theories/PropsDrop.v
theories/Cost.v
theories/CostP.v
theories/PropsCost.v
theories/Parts.v
theories/PartsP.v
theories/PropsParts.v
theories/Short.v
theories/ShortP.v
theories/ShortSP.v
theories/ShortMP.v
theories/PropsShort.v
theories/Fails.v
theories/FailsP.v
theories/FailsHP.v
theories/FailsWP.v
theories/PropsFails.v
theories/Work.v
theories/WorkP.v
theories/WorkMP.v
theories/PropsWork.v
theories/Cheap.v
theories/CheapP.v
theories/PropsCheap.v
theories/OneEraseP.v
theories/PropsOneErase.v
theories/CheapMP.v
theories/PropsCheapM.v
theories/Port.v
theories/PortP.v
theories/PropsPort.v
theories/Addr32.v
theories/Addr32P.v
theories/Addr32Q.v
theories/PropsAddr.v
