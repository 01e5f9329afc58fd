-Q theories Verif
theories/Util.v
theories/Types.v
theories/CommitteeModel.v
theories/CommitteeProofs.v
theories/Props_Committee.v
theories/CertModel.v
theories/CertProofs.v
theories/GasModel.v
theories/GasSpec.v
theories/GasProofs.v
theories/Props_Gas.v
theories/SlotProofs.v
theories/Props_Cert.v
theories/LeaderModel.v
theories/LeaderProofs.v
theories/Props_Leader.v
theories/LdbModel.v
theories/LdbProofs.v
theories/LdbHist.v
theories/Props_Ldb.v
theories/LdbChain.v
theories/VoteModel.v
theories/VoteSpec.v
theories/VoteProofs.v
theories/VoteProofs2.v
theories/Props_Vote.v
theories/BullModel.v
theories/BullSpec.v
theories/BullProofs1.v
theories/BullProofs2.v
theories/BullProofs3.v
theories/BullProofs4.v
theories/BullProofs5.v
theories/BullProofs6.v
theories/BullProofs7.v
theories/BullProofs8.v
theories/BullProofs9.v
theories/Props_Bull.v
theories/Props_BullWin.v
theories/PropModel.v
theories/PropSpec.v
theories/PropProofs1.v
theories/PropProofs2.v
theories/Props_Prop.v
theories/SyncModel.v
theories/SyncSpec.v
theories/SyncProofs1.v
theories/SyncProofs2.v
theories/SyncProofs3.v
theories/Props_Fetch.v
theories/Props_Sync.v
theories/FileModel.v
theories/FileSpec.v
theories/FileProofs.v
theories/PackModel.v
theories/PackSpec.v
theories/PackProofs.v
theories/PackProofs2.v
theories/PackProofs3.v
theories/PackProofs4.v
theories/Props_File.v
theories/PosModel.v
theories/PosSpec.v
theories/PosProofs.v
theories/Props_Pos.v
theories/HdxModel.v
theories/HdxSpec.v
theories/HdxProofs.v
theories/HdxProofs2.v
theories/Props_Hdx.v
theories/GossipModel.v
theories/GossipSpec.v
theories/GossipProofs.v
theories/GossipProofs2.v
theories/Props_Gossip.v
theories/EpochModel.v
theories/EpochSpec.v
theories/EpochProofs.v
theories/EpochDbModel.v
theories/Props_Epoch.v
theories/Props_EpochDb.v
theories/ShuffleModel.v
theories/ShuffleProofs.v
theories/Props_Shuffle.v
theories/RecountModel.v
theories/RecountSpec.v
theories/RecountProofs.v
theories/Props_Recount.v
theories/TelModel.v
theories/TelSpec.v
theories/TelProofs.v
theories/TelProofs2.v
theories/Props_Tel.v
theories/FeeModel.v
theories/FeeSpec.v
theories/FeeProofs.v
theories/Props_Fee.v
theories/OutModel.v
theories/OutSpec.v
theories/OutProofs.v
theories/EpackModel.v
theories/EpackSpec.v
theories/EpackProofs.v
theories/Props_Epack.v
theories/SubModel.v
theories/SubSpec.v
theories/SubProofs.v
theories/Props_Sub.v
theories/ImpModel.v
theories/ImpSpec.v
theories/ImpProofs.v
theories/Props_Imp.v
theories/FolModel.v
theories/FolSpec.v
theories/FolProofs.v
theories/Props_Fol.v
theories/WireModel.v
theories/WireSpec.v
theories/WireProofs.v
theories/Props_Wire.v
theories/BatModel.v
theories/BatSpec.v
theories/BatProofs.v
theories/BatProofs2.v
theories/BatProofs3.v
theories/BatProofs4.v
theories/Props_Bat.v
theories/NetModel.v
theories/NetSpec.v
theories/NetProofs.v
theories/NetProofs2.v
theories/Props_Net.v
theories/LatModel.v
theories/LatSpec.v
theories/LatProofs.v
theories/Props_Lat.v
theories/AMap.v
theories/PeersModel.v
theories/PeersSpec.v
theories/PeersProofs.v
theories/PeersProofs2.v
theories/PeersProofs3.v
theories/PeersProofs4.v
theories/PeersProofs5.v
theories/PeersProofs6.v
theories/Props_Peers.v
theories/Props_Scores.v
theories/ExecModel.v
theories/ExecSpec.v
theories/ExecProofs.v
theories/ExecProofs2.v
theories/ExecProofs3.v
theories/ExecProofs4.v
theories/ExecProofs5.v
theories/ExecProofs6.v
theories/Props_Exec.v
theories/CacheModel.v
theories/CacheSpec.v
theories/CacheProofs.v
theories/Props_Cache.v
theories/MgrModel.v
theories/MgrSpec.v
theories/MgrProofs.v
theories/MgrProofs2.v
theories/MgrProofs3.v
theories/MgrProofs4.v
theories/MgrProofs5.v
theories/MgrProofs6.v
theories/MgrDirSpec.v
theories/Props_Mgr.v
theories/Props_MgrDir.v
theories/MgrProofs7.v
theories/MgrProofs8.v
theories/MgrProofs9.v
theories/MgrProofs10.v
theories/Props_MgrLim.v
theories/VqModel.v
theories/VqSpec.v
theories/VqProofs.v
theories/VqProofs2.v
theories/VqProofs3.v
theories/VqProofs4.v
theories/Props_Vq.v
theories/ExexModel.v
theories/ExexSpec.v
theories/ExexProofs.v
theories/ExexProofs2.v
theories/ExexProofs3.v
theories/Props_Exex.v
theories/PbModel.v
theories/PbSpec.v
theories/PbProofs1.v
theories/PbProofs2.v
theories/PbProofs3.v
theories/PbProofs4.v
theories/PbProofs5.v
theories/Props_Pb.v
theories/CfModel.v
theories/CfSpec.v
theories/CfStore.v
theories/CfColl.v
theories/CfRest.v
theories/Props_Cf.v
theories/FwModel.v
theories/FwSpec.v
theories/FwHosts.v
theories/FwNames.v
theories/FwWalk.v
theories/FwBatch.v
theories/FwNode.v
theories/Props_Fw.v
theories/SnModel.v
theories/SnSpec.v
theories/SnMaps.v
theories/SnPack.v
theories/SnWrite.v
theories/SnImport.v
theories/SnRestore.v
theories/SnLoad.v
theories/SnMore.v
theories/SnExample.v
theories/Props_Sn.v
theories/PvModel.v
theories/PvSpec.v
theories/PvProofs.v
theories/PvWalk.v
theories/PvReport.v
theories/PvImport.v
theories/PvAgree.v
theories/Props_Pv.v
theories/KadModel.v
theories/KadSpec.v
theories/KadProofs.v
theories/KadRec.v
theories/KadProv.v
theories/KadHist.v
theories/Props_Kad.v
theories/Props_KadX.v
theories/CodecModel.v
theories/CodecSpec.v
theories/CodecProofs.v
theories/CodecMsg.v
theories/Props_Codec.v
theories/Props_CodecX.v
theories/SfrModel.v
theories/SfrSpec.v
theories/SfrProofs.v
theories/Props_Sfr.v
theories/RlModel.v
theories/RlSpec.v
theories/RlProofs.v
theories/Props_Rl.v
theories/Props_RlX.v
theories/NtModel.v
theories/Props_Nt.v
