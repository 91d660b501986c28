rocq/.lia.cache
rocq/.nia.cache
rocq/.Makefile.d
rocq/Makefile
rocq/Makefile.conf
*.vo
*.vos
*.vok
*.glob
*.aux
*.cache
