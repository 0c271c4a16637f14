*.vo
*.vos
*.vok
*.glob
*.aux
.lia.cache
.nia.cache
rocq/Makefile
rocq/Makefile.conf
rocq/.Makefile.d
*.d
.nra.cache
